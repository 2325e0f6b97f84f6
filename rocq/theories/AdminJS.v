(** Proofs about the rows shown in the browser (AdminJSModel.v). *)
From Coq Require Import List Arith Lia Bool ZArith.
From Verif Require Import Prelude Forest SpecFacts SpecSane SpecKids SpecPerm AdminModel PropsAdmin AdminJSModel.
Import ListNotations.

(** ** What the page should show *)

(** The nodes one sees when the nodes of [open] are open: the roots, and the children of the
    open nodes one sees. *)
Fixpoint seen (open : nat -> bool) (F : forest node) : list nat :=
  match F with
  | Nil => []
  | Cons a k r => nid a :: (if open (nid a) then seen open k else []) ++ seen open r
  end.

Definition mem (n : nat) (l : list nat) : bool := existsb (Nat.eqb n) l.
Definition below (F : forest node) (n x : nat) : bool :=
  match children_of n F with Some k => mem x (ids k) | None => false end.

(** The open nodes, the nodes whose children the page knows, and the nodes whose children
    are asked for. *)
Record view := mkView { opened : nat -> bool; known : nat -> bool; waiting : nat -> bool }.
Definition view0 : view := mkView (fun _ => false) (fun _ => false) (fun _ => false).

Definition plus (n : nat) (P : nat -> bool) (x : nat) : bool := (x =? n) || P x.
Definition minus (l : list nat) (P : nat -> bool) (x : nat) : bool := P x && negb (mem x l).

(** A closed node opens, at once if its children are known, otherwise when they arrive;
    with an open node everything below is closed. *)
Definition view_open (s : view) (n : nat) : view :=
  if known s n then mkView (plus n (opened s)) (known s) (waiting s)
  else mkView (opened s) (known s) (plus n (waiting s)).
Definition view_close (F : forest node) (s : view) (n : nat) : view :=
  mkView (fun x => opened s x && negb ((x =? n) || below F n x)) (known s) (waiting s).
Definition view_got (s : view) (n : nat) : view :=
  mkView (plus n (opened s)) (plus n (known s)) (minus [n] (waiting s)).

Definition view_step (F : forest node) (s : view) (e : event) : view :=
  match e with
  | Click n =>
      if mem n (seen (opened s) F) && has_kids n F then
        if opened s n then view_close F s n else if waiting s n then s else view_open s n
      else s
  | Enter n =>
      if mem n (seen (opened s) F) && has_kids n F && negb (opened s n || waiting s n) then view_open s n else s
  | Answer n => if waiting s n then view_got s n else s
  | Lost n => s
  end.

(** No click on a row while its children, or those of a node below, are being loaded;
    and no request fails. *)
Definition calm (F : forest node) (s : view) (e : event) : Prop :=
  match e with
  | Click n => forall x, waiting s x = true -> x <> n /\ ~ descends F n x
  | Lost _ => False
  | _ => True
  end.
Fixpoint all_calm (F : forest node) (s : view) (es : list event) : Prop :=
  match es with
  | [] => True
  | e :: es => calm F s e /\ all_calm F (view_step F s e) es
  end.

(** The row of node [i]. *)
Definition parent_row (F : forest node) (i : nat) : nat := match parent_of i F with Some (Some q) => q | _ => 0 end.
Definition shown_in (F : forest node) (s : view) (i : nat) : bool :=
  match parent_of i F with Some (Some q) => opened s q | _ => true end.
Definition render (F : forest node) (s : view) (i : nat) : urow :=
  let h := has_kids i F in
  mkU i (parent_row F i) (Z.of_nat (level_of i F)) h (shown_in F s i)
    (known s i || waiting s i) (h && negb (opened s i || waiting s i)) (h && opened s i) (h && waiting s i).

(** ** Facts *)
Lemma mem_in n l : mem n l = true <-> In n l.
Proof. unfold mem. rewrite existsb_exists. split; [intros (x & H & E); apply Nat.eqb_eq in E; subst; auto|]. intros H. exists n. rewrite Nat.eqb_refl. auto. Qed.

Lemma mem_false n l : mem n l = false <-> ~ In n l.
Proof. rewrite <- mem_in. destruct (mem n l); intuition congruence. Qed.

Lemma below_iff F n x : below F n x = true <-> descends F n x.
Proof.
  unfold below, descends. destruct (children_of n F) as [k|].
  - rewrite mem_in. split; [intros; eauto|]. intros (l & E & H). congruence.
  - split; [discriminate|]. intros (l & E & _). discriminate.
Qed.

Lemma seen_ids P F x : In x (seen P F) -> In x (ids F).
Proof.
  induction F as [|a k IHk r IHr]; cbn [seen]; auto. rewrite ids_cons. cbn [In]. rewrite !in_app_iff.
  intros [->|[H|H]]; auto. destruct (P (nid a)); [auto|destruct H].
Qed.

Lemma desc_cons a k r n x : wf_ids (Cons a k r) ->
  (descends (Cons a k r) n x <-> (n = nid a /\ In x (ids k)) \/ descends k n x \/ descends r n x).
Proof.
  intros W. destruct (wf_cons_inv W) as (W1 & W2 & W3 & W4 & W5). unfold descends. cbn [children_of].
  destruct (Nat.eqb_spec (nid a) n) as [<-|N].
  - split.
    + intros (l & E & H). injection E as <-. auto.
    + intros [[_ H]|[(l & E & _)|(l & E & _)]]; [eauto| |]; apply children_in in E; contradiction.
  - split.
    + intros (l & E & H). destruct (children_of n k) as [y|] eqn:Ek; right; [left|right]; eauto.
    + intros [[E _]|[(l & E & H)|(l & E & H)]]; [congruence| |].
      * rewrite E. eauto.
      * rewrite (children_of_notin n k); [eauto|]. intros Hk. apply children_in in E. eauto.
Qed.

Lemma desc_in2 F n x : descends F n x -> In n (ids F).
Proof. intros (l & E & _). apply (children_in _ _ _ E). Qed.

(** Being seen means that all ancestors are open. *)
Lemma seen_iff P F x : wf_ids F -> (In x (seen P F) <-> In x (ids F) /\ forall n, descends F n x -> P n = true).
Proof.
  induction F as [|a k IHk r IHr]; intros W.
  - cbn. split; [intros []|intros [[] _]].
  - destruct (wf_cons_inv W) as (W1 & W2 & W3 & W4 & W5). cbn [seen]. rewrite ids_cons. cbn [In]. rewrite !in_app_iff.
    split.
    + intros [<-|[H|H]].
      * split; auto. intros n D. apply (desc_cons a k r) in D; auto. destruct D as [[_ D]|[D|D]]; [contradiction| |]; apply desc_in in D; contradiction.
      * destruct (P (nid a)) eqn:Pa; [|destruct H]. apply (IHk W3) in H. destruct H as (H & Hd). split; auto.
        intros n D. apply (desc_cons a k r) in D; auto. destruct D as [[-> D]|[D|D]]; auto.
        apply desc_in in D. exfalso; eauto.
      * apply (IHr W4) in H. destruct H as (H & Hd). split; auto.
        intros n D. apply (desc_cons a k r) in D; auto. destruct D as [[-> D]|[D|D]]; auto; [|apply desc_in in D]; exfalso; eauto.
    + intros ([<-|[H|H]] & Hd); auto.
      * right. left. rewrite (Hd (nid a)) by (apply desc_cons; auto). apply IHk; auto. split; auto.
        intros n D. apply Hd, desc_cons; auto.
      * right. right. apply IHr; auto. split; auto. intros n D. apply Hd, desc_cons; auto.
Qed.

Lemma desc_parent F n i : wf_ids F -> In i (ids F) ->
  (descends F n i <-> exists q, parent_of i F = Some (Some q) /\ (n = q \/ descends F n q)).
Proof.
  intros W H. rewrite anc_descends by auto. destruct (anc_parent i F W H) as (A & EA & [[Q ->]|(q & A' & Q & Hq & EA' & ->)]).
  - split; [intros (A & E & Hn); rewrite EA in E; injection E as <-; destruct Hn|].
    intros (q & E & _). rewrite Q in E. discriminate.
  - assert (Hi : In (nid q) (ids F)) by (apply in_map; auto). split.
    + intros (A & E & Hn). rewrite EA in E. injection E as <-. exists (nid q). split; auto.
      rewrite map_app, in_app_iff in Hn. cbn in Hn. destruct Hn as [Hn|[Hn|[]]]; auto.
      right. apply anc_descends; eauto.
    + intros (q' & E & Hn). rewrite Q in E. injection E as <-. exists (A' ++ [q]). split; auto.
      rewrite map_app, in_app_iff. cbn. destruct Hn as [->|Hn]; auto. left.
      apply anc_descends in Hn; auto. destruct Hn as (B & EB & Hn). rewrite EA' in EB. injection EB as <-. auto.
Qed.

Lemma desc_trans F n m x : wf_ids F -> descends F n m -> descends F m x -> descends F n x.
Proof.
  intros W Hm Hx. induction F as [|a k IHk r IHr]; [destruct Hm as (l & E & _); discriminate|].
  destruct (wf_cons_inv W) as (W1 & W2 & W3 & W4 & W5).
  apply desc_cons; auto. apply desc_cons in Hm; auto. apply desc_cons in Hx; auto.
  destruct Hm as [[-> Hm]|[Hm|Hm]], Hx as [[-> Hx]|[Hx|Hx]]; try contradiction.
  - left. split; auto. apply desc_in in Hx; auto.
  - apply desc_in2 in Hx. exfalso; eauto.
  - apply desc_in in Hm. contradiction.
  - auto.
  - apply desc_in in Hm. apply desc_in2 in Hx. exfalso; eauto.
  - apply desc_in in Hm. contradiction.
  - apply desc_in in Hm. apply desc_in2 in Hx. exfalso; eauto.
  - auto.
Qed.

Lemma desc_irrefl F n : wf_ids F -> ~ descends F n n.
Proof.
  induction F as [|a k IHk r IHr]; intros W D; [destruct D as (l & E & _); discriminate|].
  destruct (wf_cons_inv W) as (W1 & W2 & W3 & W4 & W5).
  apply desc_cons in D; auto. destruct D as [[-> D]|[D|D]]; [contradiction|apply IHk|apply IHr]; auto.
Qed.

Lemma children_children F b k c l : wf_ids F -> children_of b F = Some k -> children_of c k = Some l -> children_of c F = Some l.
Proof.
  revert k. induction F as [|a f IHf r IHr]; intros k W E E2; [discriminate|].
  destruct (wf_cons_inv W) as (W1 & W2 & W3 & W4 & W5). cbn [children_of] in *.
  destruct (Nat.eqb_spec (nid a) b) as [<-|N].
  - injection E as ->. destruct (Nat.eqb_spec (nid a) c) as [<-|]; [apply children_in in E2; contradiction|]. rewrite E2. auto.
  - destruct (children_of b f) as [y|] eqn:Ef.
    + injection E as ->. destruct (Nat.eqb_spec (nid a) c) as [<-|].
      * apply children_in in E2. exfalso. apply W1. eapply (kids_in (Some b)); eauto.
      * rewrite (IHf k); auto.
    + destruct (Nat.eqb_spec (nid a) c) as [<-|].
      * apply children_in in E2. exfalso. apply W2. eapply (kids_in (Some b)); eauto.
      * rewrite (children_of_notin c f); [apply (IHr k); auto|]. intros Hc. apply children_in in E2.
        apply (W5 c Hc). eapply (kids_in (Some b)); eauto.
Qed.

(** ** Sets that contain the ancestors of their elements *)
Definition upc (P : nat -> bool) (F : forest node) : Prop := forall n x, descends F n x -> P n = false -> P x = false.

Lemma upc_cons P a k r : wf_ids (Cons a k r) -> upc P (Cons a k r) ->
  (P (nid a) = false -> forall x, In x (ids k) -> P x = false) /\ upc P k /\ upc P r.
Proof.
  intros W U. split; [|split].
  - intros E x Hx. apply (U (nid a)); auto. apply desc_cons; auto.
  - intros n x D. apply U. apply desc_cons; auto.
  - intros n x D. apply U. apply desc_cons; auto.
Qed.

Lemma filter_none {A} (f : A -> bool) l : (forall x, In x l -> f x = false) -> filter f l = [].
Proof. induction l as [|a l IH]; cbn; intros H; auto. rewrite H by auto. auto. Qed.

Lemma roots_filter P R k : wf_ids k -> (forall x, In x (ids k) -> (In x R <-> In x (map nid (roots k)))) ->
  filter (fun i => mem i R) (seen P k) = map nid (roots k).
Proof.
  induction k as [|a k IHk r IHr]; intros W H; auto.
  destruct (wf_cons_inv W) as (W1 & W2 & W3 & W4 & W5). cbn [seen roots map] in *. rewrite ids_cons in H.
  cbn [filter]. rewrite (proj2 (mem_in _ _)) by (apply H; cbn; auto). f_equal. rewrite filter_app.
  rewrite (filter_none _ (if P (nid a) then seen P k else [])).
  - cbn [app]. apply IHr; auto. intros x Hx. rewrite H by (cbn; rewrite in_app_iff; auto). cbn. split; auto.
    intros [<-|]; auto. contradiction.
  - intros x Hx. assert (Hk : In x (ids k)) by (destruct (P (nid a)); [eapply seen_ids; eauto|destruct Hx]).
    apply mem_false. rewrite H by (cbn; rewrite in_app_iff; auto). cbn. intros [<-|Hr]; [contradiction|].
    apply roots_ids in Hr. eauto.
Qed.

Lemma kids_filter P b k R : forall F, wf_ids F -> upc P F -> children_of b F = Some k ->
  (forall x, In x (ids F) -> (In x R <-> In x (map nid (roots k)))) ->
  filter (fun i => mem i R) (seen P F) = if P b then map nid (roots k) else [].
Proof.
  induction F as [|a f IHf r IHr]; intros W U E H; [discriminate|].
  destruct (wf_cons_inv W) as (W1 & W2 & W3 & W4 & W5). destruct (upc_cons _ _ _ _ W U) as (U1 & U2 & U3).
  rewrite ids_cons in H. cbn [seen filter]. cbn [children_of] in E.
  assert (Off : forall G, (forall x, In x (ids G) -> In x (nid a :: ids f ++ ids r)) ->
            (forall x, In x (ids k) -> ~ In x (ids G)) -> filter (fun i => mem i R) (seen P G) = []).
  { intros G Hin Hd. apply filter_none. intros x Hx. apply seen_ids in Hx. apply mem_false.
    rewrite H by auto. intros Hr. apply roots_ids in Hr. apply (Hd x); auto. }
  assert (Na : ~ In (nid a) (ids k)).
  { destruct (Nat.eqb_spec (nid a) b) as [<-|N]; [injection E as <-; auto|].
    destruct (children_of b f) as [y|] eqn:Ef.
    - injection E as ->. intros X. apply W1. eapply (kids_in (Some b)); eauto.
    - intros X. apply W2. eapply (kids_in (Some b)); eauto. }
  rewrite (proj2 (mem_false _ _)) by (rewrite H by (cbn; auto); intros X; apply roots_ids in X; auto).
  rewrite filter_app. destruct (Nat.eqb_spec (nid a) b) as [<-|N].
  - injection E as ->. rewrite (Off r).
    + rewrite app_nil_r. destruct (P (nid a)); auto. apply roots_filter; auto.
      intros x Hx. apply H. cbn. rewrite in_app_iff. auto.
    + intros x Hx. cbn. rewrite in_app_iff. auto.
    + intros x Hx Hr. eauto.
  - destruct (children_of b f) as [y|] eqn:Ef.
    + injection E as ->. rewrite (Off r).
      * rewrite app_nil_r. destruct (P (nid a)) eqn:Pa.
        -- apply IHf; auto. intros x Hx. apply H. cbn. rewrite in_app_iff. auto.
        -- cbn [filter]. rewrite (U1 eq_refl b); auto. apply (children_in _ _ _ Ef).
      * intros x Hx. cbn. rewrite in_app_iff. auto.
      * intros x Hx Hr. assert (In x (ids f)) by (eapply (kids_in (Some b)); eauto). eauto.
    + rewrite <- IHr; auto.
      * destruct (P (nid a)); auto. rewrite (Off f); auto.
        -- intros x Hx. cbn. rewrite in_app_iff. auto.
        -- intros x Hx Hf. assert (In x (ids r)) by (eapply (kids_in (Some b)); eauto). eauto.
      * intros x Hx. apply H. cbn. rewrite in_app_iff. auto.
Qed.

Lemma seen_length P F b k : wf_ids F -> upc P F -> children_of b F = Some k -> P b = true ->
  length (seen P k) < length (seen P F).
Proof.
  revert k. induction F as [|a f IHf r IHr]; intros k W U E Pb; [discriminate|].
  destruct (wf_cons_inv W) as (W1 & W2 & W3 & W4 & W5). destruct (upc_cons _ _ _ _ W U) as (U1 & U2 & U3).
  cbn [seen children_of length] in *. rewrite app_length. destruct (Nat.eqb_spec (nid a) b) as [<-|N].
  - injection E as ->. rewrite Pb. lia.
  - destruct (children_of b f) as [y|] eqn:Ef.
    + injection E as ->. destruct (P (nid a)) eqn:Pa; [assert (length (seen P k) < length (seen P f)); [auto|lia]|].
      rewrite (U1 eq_refl b) in Pb; [discriminate|]. apply (children_in _ _ _ Ef).
    + assert (length (seen P k) < length (seen P r)); auto. lia.
Qed.

Lemma seen_nodup P F : wf_ids F -> NoDup (seen P F).
Proof.
  induction F as [|a f IHf r IHr]; intros W; [constructor|].
  destruct (wf_cons_inv W) as (W1 & W2 & W3 & W4 & W5). cbn [seen].
  assert (Hf : forall x, In x (if P (nid a) then seen P f else []) -> In x (ids f)).
  { intros x. destruct (P (nid a)); [apply seen_ids|intros []]. }
  constructor.
  - rewrite in_app_iff. intros [X|X]; [apply Hf in X|apply seen_ids in X]; auto.
  - apply NoDup_app_iff. split; [destruct (P (nid a)); [auto|constructor]|]. split; auto.
    intros x X Y. apply Hf in X. apply seen_ids in Y. eauto.
Qed.

Lemma seen_none P F : (forall x, In x (ids F) -> P x = false) -> seen P F = map nid (roots F).
Proof.
  induction F as [|a k _ r IH]; auto. rewrite ids_cons. intros H. cbn [seen roots map].
  rewrite H by (cbn; auto). cbn [app]. rewrite IH; auto. intros x Hx. apply H. cbn. rewrite in_app_iff. auto.
Qed.

Lemma seen_ext P Q F : (forall x, In x (ids F) -> P x = Q x) -> seen P F = seen Q F.
Proof.
  induction F as [|a k IHk r IHr]; auto. rewrite ids_cons. intros H. cbn [seen].
  rewrite H by (cbn; auto). rewrite IHk, IHr; auto; intros x Hx; apply H; cbn; rewrite in_app_iff; auto.
Qed.

(** ** The states of a visit *)
Record good (F : forest node) (s : view) : Prop := mkGood {
  g_open : forall n x, descends F n x -> opened s n = false -> opened s x = false /\ waiting s x = false;
  g_known : upc (known s) F;
  g_ok : forall x, opened s x = true -> known s x = true;
  g_wk : forall x, waiting s x = true -> known s x = false /\ In x (ids F) }.

Definition rows_of (F : forest node) (s : view) (D : list nat) : list urow := map (render F s) D.

Definition inv (F : forest node) (s : view) (p : page) : Prop :=
  p_rows p = rows_of F s (seen (known s) F) /\
  (forall x, In x (p_asked p) <-> waiting s x = true) /\ good F s.

Section Visit.
Variable F : forest node.
Hypothesis W : wf_ids F.
Hypothesis N0 : ~ In 0 (ids F).

Lemma parent_row_iff i b : In i (ids F) -> In b (ids F) -> (parent_row F i =? b) = true <-> parent_of i F = Some (Some b).
Proof.
  intros Hi Hb. rewrite Nat.eqb_eq. unfold parent_row. destruct (kl_ex F i W Hi) as (q & a & _ & _ & Ep). rewrite Ep.
  destruct q as [q|]; split; congruence.
Qed.

Lemma parent_roots i b k : In i (ids F) -> children_of b F = Some k -> (parent_of i F = Some (Some b) <-> In i (map nid (roots k))).
Proof.
  intros Hi E. assert (K : kl (Some b) F = roots k) by (apply kl_some; auto). rewrite <- K. split.
  - intros H. destruct (kl_ex F i W Hi) as (q & a & Ha & <- & Ep). rewrite H in Ep. injection Ep as <-. apply in_map. auto.
  - intros H. apply in_map_iff in H. destruct H as (a & <- & Ha). apply kl_parent; auto.
Qed.

Lemma children_rows s b k : upc (known s) F -> children_of b F = Some k ->
  map u_id (u_children (rows_of F s (seen (known s) F)) b) = if known s b then map nid (roots k) else [].
Proof.
  intros U E. assert (Hb := children_in _ _ _ E). unfold u_children, rows_of.
  rewrite <- (kids_filter (known s) b k (map nid (roots k)) F W U E) by tauto.
  assert (H : forall D, (forall i, In i D -> In i (ids F)) -> map u_id (filter (fun r => u_parent r =? b) (map (render F s) D)) =
            filter (fun i => mem i (map nid (roots k))) D).
  { induction D as [|i D IH]; intros H; auto. cbn [map filter u_parent render].
    assert (X : (parent_row F i =? b) = mem i (map nid (roots k))).
    { apply eq_true_iff_eq. rewrite mem_in, parent_row_iff, (parent_roots i b k); auto; try tauto; apply H; cbn; auto. }
    cbn in X |- *. rewrite X. destruct (mem i (map nid (roots k))); cbn [map]; rewrite IH; auto; intros; apply H; cbn; auto. }
  apply H. intros i. apply seen_ids.
Qed.

Definition closing (s : view) (l : list nat) : view := mkView (minus l (opened s)) (known s) (waiting s).

Lemma render_ext s s' i : (forall x, opened s x = opened s' x) -> (forall x, known s x = known s' x) ->
  (forall x, waiting s x = waiting s' x) -> render F s i = render F s' i.
Proof.
  intros Ho Hk Hw. unfold render, shown_in. rewrite Ho, Hk, Hw. destruct (parent_of i F) as [[q|]|]; rewrite ?Ho; auto.
Qed.

Lemma rows_ext s s' D : (forall x, opened s x = opened s' x) -> (forall x, known s x = known s' x) ->
  (forall x, waiting s x = waiting s' x) -> rows_of F s D = rows_of F s' D.
Proof. intros. apply map_ext. intros i. apply render_ext; auto. Qed.

Lemma where_map P f s D : where_ P f (rows_of F s D) = map (fun i => if P (render F s i) then f (render F s i) else render F s i) D.
Proof. unfold where_, rows_of. apply map_map. Qed.

(** hiding the children of [a] and closing its link *)
Lemma hide_ok s l a D : (forall i, In i D -> In i (ids F)) -> In a (ids F) -> waiting s a = false ->
  where_ (fun r => u_id r =? a) (fun r => set_link true false (u_wait r) r)
    (where_ (fun r => u_parent r =? a) (set_shown false) (rows_of F (closing s l) D)) = rows_of F (closing s (a :: l)) D.
Proof.
  intros HD Ha Wa. rewrite where_map. unfold where_. rewrite map_map. apply map_ext_in. intros i Hi.
  assert (Pi := parent_row_iff i a (HD i Hi) Ha).
  assert (Sh : (if parent_row F i =? a then false else shown_in F (closing s l) i) = shown_in F (closing s (a :: l)) i).
  { unfold shown_in. destruct (parent_row F i =? a) eqn:E.
    - rewrite (proj1 Pi eq_refl). cbn. unfold minus. cbn. rewrite Nat.eqb_refl. cbn. rewrite andb_false_r. auto.
    - destruct (parent_of i F) as [[q|]|] eqn:Ep; auto. cbn. unfold minus. cbn. destruct (Nat.eqb_spec q a) as [->|]; auto.
      assert (X := proj2 Pi eq_refl). discriminate. }
  assert (X : (if parent_row F i =? a then set_shown false (render F (closing s l) i) else render F (closing s l) i) =
    mkU i (parent_row F i) (Z.of_nat (level_of i F)) (has_kids i F) (if parent_row F i =? a then false else shown_in F (closing s l) i)
      (known s i || waiting s i) (has_kids i F && negb (opened (closing s l) i || waiting s i)) (has_kids i F && opened (closing s l) i) (has_kids i F && waiting s i)).
  { destruct (parent_row F i =? a); reflexivity. }
  change (u_parent (render F (closing s l) i)) with (parent_row F i). rewrite X. clear X. cbn [u_id].
  unfold render. rewrite <- Sh. clear Sh.
  destruct (Nat.eqb_spec i a) as [->|Ni].
  - unfold set_link. cbn [u_link u_wait u_id u_parent u_level u_shown u_loaded]. cbn [closing opened known waiting]. rewrite Wa.
    unfold minus. cbn [mem existsb]. rewrite Nat.eqb_refl. cbn [orb negb]. rewrite !andb_false_r.
    destruct (has_kids a F); cbn [andb negb orb]; auto.
  - cbn [closing opened known waiting]. unfold minus, mem. cbn [existsb]. rewrite (proj2 (Nat.eqb_neq i a) Ni). cbn [orb]. reflexivity.
Qed.

Lemma collapse_S fuel rows id : collapse (S fuel) rows id =
  do rows <- each (collapse fuel) (map u_id (u_children rows id)) rows;
  Ok (where_ (fun r => u_id r =? id) (fun r => set_link true false (u_wait r) r)
        (where_ (fun r => u_parent r =? id) (set_shown false) rows)).
Proof. reflexivity. Qed.

Lemma closing_none s l D : (forall x, In x l -> opened s x = false) -> rows_of F s D = rows_of F (closing s l) D.
Proof.
  intros H. apply rows_ext; auto. intros x. cbn. unfold minus. destruct (mem x l) eqn:E.
  - apply mem_in in E. rewrite H; auto.
  - cbn. rewrite andb_true_r. auto.
Qed.

Lemma closing_closing s l l' D : rows_of F (closing (closing s l) l') D = rows_of F (closing s (l ++ l')) D.
Proof.
  apply rows_ext; auto. intros x. cbn. unfold minus, mem. rewrite existsb_app, negb_orb, andb_assoc. auto.
Qed.

(** The part of the state that collapsing does not change. *)
Lemma each_ok : forall k fuel s, wf_ids k -> (forall b l, children_of b k = Some l -> children_of b F = Some l) ->
  upc (known s) F -> (forall x, opened s x = true -> known s x = true) -> (forall x, In x (ids k) -> waiting s x = false) ->
  length (seen (known s) k) <= fuel ->
  each (collapse fuel) (map nid (roots k)) (rows_of F s (seen (known s) F)) = Ok (rows_of F (closing s (ids k)) (seen (known s) F)).
Proof.
  induction k as [|a k IHk r IHr]; intros fuel s Wk Sub U OK Nw Hf.
  - cbn. f_equal. apply closing_none. intros x [].
  - destruct (wf_cons_inv Wk) as (W1 & W2 & W3 & W4 & W5).
    cbn [roots map each]. cbn [seen length] in Hf. rewrite app_length in Hf.
    destruct fuel as [|fuel]; [lia|]. rewrite collapse_S.
    assert (Ea : children_of (nid a) F = Some k) by (apply Sub; cbn; rewrite Nat.eqb_refl; auto).
    assert (Ha := children_in _ _ _ Ea).
    rewrite (children_rows s (nid a) k U Ea). rewrite ids_cons in Nw.
    assert (E1 : each (collapse fuel) (if known s (nid a) then map nid (roots k) else []) (rows_of F s (seen (known s) F)) =
                 Ok (rows_of F (closing s (ids k)) (seen (known s) F))).
    { destruct (known s (nid a)) eqn:Ka.
      - apply IHk; auto; try lia.
        + intros b l E. apply (children_children F (nid a) k); auto.
        + intros x Hx. apply Nw. cbn. rewrite in_app_iff. auto.
      - cbn [each]. f_equal. apply closing_none. intros x Hx. destruct (opened s x) eqn:Ox; auto.
        apply OK in Ox. rewrite (U (nid a)) in Ox; auto. exists k; auto. }
    rewrite E1. cbn [bind]. rewrite hide_ok; auto; [|intros i; apply seen_ids|apply Nw; cbn; auto]. cbn [bind].
    set (s1 := closing s (nid a :: ids k)).
    change (rows_of F s1 (seen (known s) F)) with (rows_of F s1 (seen (known s1) F)).
    assert (E2 : each (collapse (S fuel)) (map nid (roots r)) (rows_of F s1 (seen (known s1) F)) = Ok (rows_of F (closing s1 (ids r)) (seen (known s1) F))).
    { apply IHr; auto.
      - intros b l E. apply Sub. cbn [children_of]. assert (Hb := children_in _ _ _ E).
        destruct (Nat.eqb_spec (nid a) b) as [<-|]; [contradiction|]. rewrite (children_of_notin b k); eauto.
      - intros x. cbn. unfold minus. rewrite andb_true_iff. intros [Ox _]. auto.
      - intros x Hx. apply Nw. cbn. rewrite in_app_iff. auto.
      - cbn. lia. }
    etransitivity; [exact E2|]. f_equal. unfold s1. rewrite closing_closing. rewrite ids_cons. cbn. auto.
Qed.

Lemma collapse_ok s n k : good F s -> children_of n F = Some k -> known s n = true ->
  (forall x, x = n \/ In x (ids k) -> waiting s x = false) ->
  collapse (S (length (rows_of F s (seen (known s) F)))) (rows_of F s (seen (known s) F)) n =
  Ok (rows_of F (view_close F s n) (seen (known s) F)).
Proof.
  intros G E K Nw. assert (Hn := children_in _ _ _ E). rewrite collapse_S. rewrite (children_rows s n k); auto; [|apply (g_known _ _ G)]. rewrite K.
  rewrite each_ok.
  - cbn [bind]. rewrite hide_ok; auto; [|intros i; apply seen_ids]. f_equal. apply rows_ext; auto. intros x. cbn.
    unfold minus, below. rewrite E. auto.
  - apply (wf_kids (Some n) F); auto.
  - intros b l Eb. apply (children_children F n k); auto.
  - apply (g_known _ _ G).
  - apply (g_ok _ _ G).
  - auto.
  - unfold rows_of. rewrite map_length. apply Nat.lt_le_incl. apply (seen_length (known s) F n k); auto. apply (g_known _ _ G).
Qed.

(** A row is shown when all ancestors are open. *)
Lemma shown_seen s i : good F s -> (In i (seen (known s) F) /\ shown_in F s i = true) <-> In i (seen (opened s) F).
Proof.
  intros G. rewrite !seen_iff by auto. split.
  - intros ((Hi & _) & Sh). split; auto. intros n D. apply desc_parent in D; auto. destruct D as (q & Ep & D).
    unfold shown_in in Sh. rewrite Ep in Sh. destruct D as [->|D]; auto.
    destruct (opened s n) eqn:On; auto. apply (g_open _ _ G n q) in On; auto. destruct On. congruence.
  - intros (Hi & H). split; [split; auto; intros n D; apply (g_ok _ _ G); auto|].
    unfold shown_in. destruct (parent_of i F) as [[q|]|] eqn:Ep; auto. apply H. apply desc_parent; auto. exists q. auto.
Qed.

Lemma find_map {A B} (f : A -> B) P l : find P (map f l) = option_map f (find (fun x => P (f x)) l).
Proof. induction l as [|a l IH]; cbn; auto. destruct (P (f a)); auto. Qed.

Lemma row_at_ok s p i : inv F s p -> row_at p i = if mem i (seen (opened s) F) then Some (render F s i) else None.
Proof.
  intros (E & _ & G). unfold row_at. rewrite E. unfold rows_of. rewrite find_map. cbn [u_id u_shown render].
  destruct (mem i (seen (opened s) F)) eqn:M.
  - apply mem_in in M. apply (shown_seen s i G) in M. destruct M as (Hi & Sh).
    replace (find _ _) with (Some i); auto. clear - Hi Sh. induction (seen (known s) F) as [|j D IH]; [destruct Hi|].
    cbn [find]. destruct (Nat.eqb_spec j i) as [->|Nj]; cbn [andb]; [rewrite Sh; auto|]. destruct Hi; [contradiction|auto].
  - apply mem_false in M. destruct (find _ _) as [j|] eqn:Ef; auto. exfalso. apply find_some in Ef. destruct Ef as (Hj & C).
    apply andb_true_iff in C. destruct C as (C & Sh). apply Nat.eqb_eq in C. subst j. apply M. apply (shown_seen s i G). auto.
Qed.

Lemma anc_open s n i : good F s -> In i (seen (opened s) F) -> descends F n i -> opened s n = true.
Proof. intros G H. apply seen_iff in H; auto. apply H. Qed.

Ltac set1 := unfold plus, minus in *; cbn in *; rewrite ?orb_true_iff, ?orb_false_iff, ?andb_true_iff, ?negb_true_iff, ?orb_false_r, ?Nat.eqb_eq, ?Nat.eqb_neq in *.

(** ** One event *)
Lemma expand_ok s p n : inv F s p -> In n (seen (opened s) F) -> has_kids n F = true -> opened s n = false -> waiting s n = false ->
  inv F (view_open s n) (expand p (render F s n)).
Proof.
  intros (E & A & G) Hn HK On Wn. assert (Hi := seen_ids _ _ _ Hn).
  unfold expand, view_open. cbn [u_loaded render u_id]. rewrite Wn, orb_false_r. destruct (known s n) eqn:Kn; split; [|split| |split]; cbn [p_rows p_asked opened known waiting].
  - rewrite E, where_map. unfold where_. rewrite map_map. apply map_ext_in. intros i Hs. assert (Hi2 := seen_ids _ _ _ Hs).
    assert (Pi := parent_row_iff i n Hi2 Hi).
    assert (Sh : (if parent_row F i =? n then true else shown_in F s i) = shown_in F (mkView (plus n (opened s)) (known s) (waiting s)) i).
    { unfold shown_in. destruct (parent_row F i =? n) eqn:Ep.
      - rewrite (proj1 Pi eq_refl). cbn. unfold plus. rewrite Nat.eqb_refl. auto.
      - destruct (parent_of i F) as [[q|]|] eqn:Eq; auto. cbn. unfold plus. destruct (Nat.eqb_spec q n) as [->|]; auto.
        assert (X := proj2 Pi eq_refl). discriminate. }
    unfold render. cbn [u_parent]. rewrite <- Sh. clear Sh Pi. cbn [opened known waiting]. unfold plus.
    destruct (parent_row F i =? n); cbn [set_shown u_id]; (destruct (Nat.eqb_spec i n) as [->|Ni]; [|reflexivity]);
      unfold set_link; cbn; rewrite HK, Wn; cbn; reflexivity.
  - auto.
  - constructor; cbn [opened known waiting]; [|apply (g_known _ _ G)| |apply (g_wk _ _ G)].
    + intros a x D. unfold plus. intros H. apply orb_false_iff in H. destruct H as (Na & Oa).
      destruct (Nat.eqb_spec x n) as [->|]; [rewrite (anc_open s a n) in Oa by auto; discriminate|]. apply (g_open _ _ G a); auto.
    + intros x. unfold plus. destruct (Nat.eqb_spec x n) as [->|]; auto. apply (g_ok _ _ G).
  - rewrite E, where_map. unfold where_. rewrite map_map. apply map_ext_in. intros i Hs.
    unfold render, shown_in. cbn [u_id opened known waiting]. unfold plus. destruct (Nat.eqb_spec i n) as [->|Ni].
    + cbn [set_loaded u_id]. rewrite Nat.eqb_refl. unfold set_link. cbn. rewrite HK, On, Kn. cbn. reflexivity.
    + cbn [u_id]. rewrite (proj2 (Nat.eqb_neq i n) Ni). reflexivity.
  - intros x. rewrite in_app_iff, A. unfold plus. cbn. rewrite orb_true_iff, Nat.eqb_eq. split; intros [H|H]; auto. destruct H as [H|[]]; auto.
  - constructor; cbn [opened known waiting]; [|apply (g_known _ _ G)|apply (g_ok _ _ G)|].
    + intros a x D H. unfold plus. destruct (Nat.eqb_spec x n) as [->|]; [rewrite (anc_open s a n) in H by auto; discriminate|]. apply (g_open _ _ G a); auto.
    + intros x. unfold plus. destruct (Nat.eqb_spec x n) as [->|]; auto. apply (g_wk _ _ G).
Qed.

Lemma close_ok s p n : inv F s p -> In n (seen (opened s) F) -> opened s n = true ->
  (forall x, waiting s x = true -> x <> n /\ ~ descends F n x) ->
  exists rows, collapse (S (length (p_rows p))) (p_rows p) n = Ok rows /\ inv F (view_close F s n) (mkPage rows (p_asked p)).
Proof.
  intros (E & A & G) Hn On C. assert (Hi := seen_ids _ _ _ Hn).
  assert (exists k, children_of n F = Some k) as (k & Ek).
  { destruct (kids_ctx _ _ Hi) as (l & Hl). destruct (Hl Nil) as (f' & Cx). exists l. apply (Ctx_kids_of Cx W). }
  rewrite E. rewrite (collapse_ok s n k); auto; [|apply (g_ok _ _ G); auto|].
  - eexists. split; [reflexivity|]. split; [|split]; cbn [p_rows p_asked]; auto.
    constructor; cbn [view_close opened known waiting]; [|apply (g_known _ _ G)| |apply (g_wk _ _ G)].
    + intros a x D H. assert (X : opened s a = false \/ a = n \/ descends F n a).
      { destruct (opened s a); auto. cbn in H. rewrite negb_false_iff, orb_true_iff, Nat.eqb_eq, below_iff in H. auto. }
      destruct X as [X|X]; [apply (g_open _ _ G a x D) in X; destruct X as (X & Y); rewrite X; auto|].
      assert (Dx : descends F n x) by (destruct X as [->|X]; [auto|eapply desc_trans; eauto]). split.
      * rewrite (proj2 (below_iff F n x) Dx), orb_true_r, andb_false_r. auto.
      * destruct (waiting s x) eqn:Wx; auto. destruct (C x Wx). contradiction.
    + intros x. rewrite andb_true_iff. intros [Ox _]. apply (g_ok _ _ G); auto.
  - intros x Hx. destruct (waiting s x) eqn:Wx; auto. destruct (C x Wx) as (X & Y). exfalso. destruct Hx as [Hx|Hx]; auto.
    apply Y. exists k. auto.
Qed.

Fixpoint put_after (n : nat) (new l : list nat) : list nat :=
  match l with [] => [] | i :: l => if i =? n then i :: new ++ l else i :: put_after n new l end.

Lemma put_notin n new l : ~ In n l -> put_after n new l = l.
Proof.
  induction l as [|i l IH]; cbn; auto. intros H. destruct (Nat.eqb_spec i n) as [->|]; [exfalso; auto|]. rewrite IH; auto.
Qed.

Lemma put_app n new l l' : put_after n new (l ++ l') = if mem n l then put_after n new l ++ l' else l ++ put_after n new l'.
Proof.
  induction l as [|i l IH]; cbn; auto. rewrite (Nat.eqb_sym n i). destruct (i =? n); cbn [orb].
  - cbn. rewrite app_assoc. auto.
  - rewrite IH. unfold mem. destruct (existsb _ l); auto.
Qed.

Lemma seen_plus P n k : forall G, wf_ids G -> upc P G -> P n = false -> children_of n G = Some k ->
  seen (plus n P) G = put_after n (map nid (roots k)) (seen P G).
Proof.
  induction G as [|a g IHg r IHr]; intros WG U Pn E; [discriminate|].
  destruct (wf_cons_inv WG) as (W1 & W2 & W3 & W4 & W5). destruct (upc_cons _ _ _ _ WG U) as (U1 & U2 & U3).
  cbn [seen children_of put_after] in *. unfold plus at 1. destruct (Nat.eqb_spec (nid a) n) as [<-|N].
  - injection E as ->. cbn [orb]. rewrite Pn. f_equal. cbn [app]. f_equal.
    + apply seen_none. intros x Hx. unfold plus. rewrite (U1 Pn x Hx), orb_false_r. apply Nat.eqb_neq. intros ->. contradiction.
    + apply seen_ext. intros x Hx. unfold plus. destruct (Nat.eqb_spec x (nid a)) as [->|]; auto. contradiction.
  - cbn [orb]. f_equal. destruct (children_of n g) as [y|] eqn:Eg.
    + injection E as ->. assert (Hg := children_in _ _ _ Eg).
      rewrite (seen_ext (plus n P) P r) by (intros x Hx; unfold plus; destruct (Nat.eqb_spec x n) as [->|]; auto; exfalso; eauto).
      rewrite put_app. destruct (P (nid a)) eqn:Pa.
      * rewrite IHg; auto. destruct (mem n (seen P g)) eqn:M; auto. apply mem_false in M. rewrite !put_notin; auto.
        intros X. apply seen_ids in X. eauto.
      * cbn [mem existsb app]. rewrite put_notin; auto. intros X. apply seen_ids in X. eauto.
    + assert (Hr := children_in _ _ _ E).
      assert (Xg : (if P (nid a) then seen (plus n P) g else []) = if P (nid a) then seen P g else []).
      { destruct (P (nid a)); auto. apply seen_ext. intros x Hx. unfold plus. destruct (Nat.eqb_spec x n) as [->|]; auto. exfalso; eauto. }
      rewrite Xg, put_app, IHr; auto. rewrite (proj2 (mem_false _ _)); auto.
      intros X. destruct (P (nid a)); [apply seen_ids in X; eauto|destruct X].
Qed.

Lemma insert_put s n new l : insert_after n (map (render F s) new) (map (render F s) l) = map (render F s) (put_after n new l).
Proof.
  induction l as [|i l IH]; cbn [map insert_after put_after]; auto. cbn [u_id render]. change (u_id (render F s i)) with i.
  destruct (i =? n); cbn [map]; [rewrite map_app|rewrite IH]; auto.
Qed.

Lemma level_child i q : In i (ids F) -> parent_of i F = Some (Some q) -> level_of i F = S (level_of q F).
Proof.
  intros Hi Ep. unfold level_of. destruct (anc_parent i F W Hi) as (A & EA & [[Q ->]|(b & B & Q & Hb & EB & ->)]); rewrite Ep in Q; [discriminate|].
  injection Q as ->. rewrite EA, EB, app_length. cbn. lia.
Qed.

(** The rows made from the children of [n]. *)
Lemma setup_kids s n k : good F s -> children_of n F = Some k -> opened s n = true ->
  (forall x, In x (ids k) -> opened s x = false /\ waiting s x = false /\ known s x = false) ->
  map setup (listed F (Some n) (roots k)) = map (render F s) (map nid (roots k)).
Proof.
  intros G E On H. unfold listed. rewrite !map_map. apply map_ext_in. intros a Ha.
  assert (Hk : In (nid a) (ids k)) by (apply roots_ids, in_map; auto).
  assert (Hi : In (nid a) (ids F)) by (apply (kids_in (Some n) F k); auto).
  assert (Ep : parent_of (nid a) F = Some (Some n)) by (apply (parent_roots _ n k); auto; apply in_map; auto).
  destruct (H _ Hk) as (H1 & H2 & H3). unfold setup, render, parent_row, shown_in. cbn.
  rewrite Ep, H1, H2, H3, On, (level_child (nid a) n Hi Ep). cbn [orb negb]. rewrite andb_true_r, !andb_false_r.
  f_equal. lia.
Qed.

Lemma arrive_ok s p n k : inv F s p -> waiting s n = true -> children_of n F = Some k ->
  inv F (view_got s n) (arrive p n (listed F (Some n) (roots k))).
Proof.
  intros (E & A & G) Wn Ek. destruct (g_wk _ _ G n Wn) as (Kn & Hn).
  assert (On : opened s n = false) by (destruct (opened s n) eqn:On; auto; apply (g_ok _ _ G) in On; congruence).
  assert (Below : forall x, In x (ids k) -> x <> n /\ opened s x = false /\ waiting s x = false /\ known s x = false).
  { intros x Hx. assert (D : descends F n x) by (exists k; auto). split; [intros ->; apply (desc_irrefl F n W D)|].
    destruct (g_open _ _ G n x D On). split; auto. split; auto. apply (g_known _ _ G n); auto. }
  assert (Anc : forall m, descends F m n -> opened s m = true).
  { intros m D. destruct (opened s m) eqn:Om; auto. destruct (g_open _ _ G m n D Om). congruence. }
  set (s1 := view_got s n).
  assert (G1 : good F s1).
  { constructor; cbn [s1 view_got opened known waiting].
    - intros a x D H. unfold plus in H. apply orb_false_iff in H. destruct H as (Na & Oa).
      destruct (g_open _ _ G a x D Oa) as (X & Y). unfold plus, minus. rewrite X, Y. cbn. split; auto.
      rewrite orb_false_r. apply Nat.eqb_neq. intros ->. rewrite (Anc a D) in Oa. discriminate.
    - intros a x D H. unfold plus in H. apply orb_false_iff in H. destruct H as (Na & Ka). unfold plus.
      rewrite (g_known _ _ G a x D Ka), orb_false_r. apply Nat.eqb_neq. intros ->. rewrite (g_ok _ _ G a) in Ka; [discriminate|auto].
    - intros x. unfold plus. destruct (x =? n); auto. cbn. apply (g_ok _ _ G).
    - intros x. unfold minus, plus. cbn. rewrite andb_true_iff, negb_true_iff, orb_false_r. intros (Wx & Nx). rewrite Nx. cbn.
      apply (g_wk _ _ G); auto. }
  split; [|split; auto].
  - unfold arrive. cbn [p_rows s1 view_got known]. rewrite (seen_plus (known s) n k); auto; [|apply (g_known _ _ G)].
    rewrite (setup_kids s1 n k); auto.
    + unfold rows_of. rewrite <- insert_put. rewrite E. unfold rows_of.
      assert (Hs : forall i, In i (seen (known s) F) -> parent_row F i <> n).
      { intros i Hi Epr. assert (Hi2 := seen_ids _ _ _ Hi). apply Nat.eqb_eq in Epr. apply parent_row_iff in Epr; auto.
        apply seen_iff in Hi; auto. destruct Hi as (_ & Hi). rewrite (Hi n) in Kn; [discriminate|]. apply desc_parent; auto. exists n. auto. }
      assert (Hnew : where_ (fun x => u_id x =? n) (fun x => set_link (u_coll x) true false x) (map (render F s1) (map nid (roots k))) = map (render F s1) (map nid (roots k))).
      { unfold where_. rewrite map_map. apply map_ext_in. intros i Hi. cbn [u_id render]. apply roots_ids in Hi. destruct (Below i Hi) as (Ni & _).
        change (u_id (render F s1 i)) with i. rewrite (proj2 (Nat.eqb_neq i n) Ni). auto. }
      assert (Hold : forall i, In i (seen (known s) F) ->
                (if u_id (render F s i) =? n then set_link (u_coll (render F s i)) true false (render F s i) else render F s i) = render F s1 i).
      { intros i Hi. change (u_id (render F s i)) with i.
        assert (Sh : shown_in F s1 i = shown_in F s i).
        { unfold shown_in. assert (X := Hs i Hi). unfold parent_row in X. destruct (parent_of i F) as [[q|]|]; auto. cbn. unfold plus.
          rewrite (proj2 (Nat.eqb_neq q n) X). auto. }
        unfold render. rewrite Sh. cbn [s1 view_got opened known waiting]. unfold plus, minus. cbn [mem existsb].
        destruct (Nat.eqb_spec i n) as [->|Ni].
        - unfold set_link. cbn [u_link u_coll u_id u_parent u_level u_shown u_loaded]. rewrite On, Wn, Kn. destruct (has_kids n F); reflexivity.
        - cbn [orb negb]. rewrite andb_true_r. reflexivity. }
      revert Hold. generalize (seen (known s) F) as D. clear E. induction D as [|i D IH]; intros Hold; auto.
      assert (Hi : (if i =? n then set_link (u_coll (render F s i)) true false (render F s i) else render F s i) = render F s1 i) by (apply (Hold i); cbn; auto).
      assert (HD : forall j, In j D -> (if u_id (render F s j) =? n then set_link (u_coll (render F s j)) true false (render F s j) else render F s j) = render F s1 j) by (intros; apply Hold; cbn; auto).
      cbn [map insert_after]. change (u_id (render F s i)) with i. change (u_id (render F s1 i)) with i.
      destruct (i =? n) eqn:Ei.
      * unfold where_ at 1. cbn [map]. change (u_id (render F s i)) with i. rewrite Ei, Hi. f_equal. rewrite map_app. f_equal; [exact Hnew|].
        rewrite map_map. apply map_ext_in. exact HD.
      * unfold where_ at 1. cbn [map]. change (u_id (render F s i)) with i. rewrite Ei, Hi. f_equal. apply IH. exact HD.
    + cbn. unfold plus. rewrite Nat.eqb_refl. auto.
    + intros x Hx. destruct (Below x Hx) as (Nx & X & Y & Z). cbn. unfold plus, minus. rewrite X, Y, Z, (proj2 (Nat.eqb_neq x n) Nx). auto.
  - intros x. cbn [arrive p_asked s1 view_got waiting]. rewrite filter_In, A. unfold minus. cbn. rewrite andb_true_iff, orb_false_r. tauto.
Qed.

Variable serve : option nat -> res (list entry).
Hypothesis Served : forall parent, serve parent = match kid_list parent F with Some L => Ok (listed F parent L) | None => Err DoesNotExist end.

Lemma open_ok : exists p, open_page serve = Ok p /\ inv F view0 p.
Proof.
  unfold open_page. rewrite Served. cbn [kid_list kids_of option_map bind]. eexists. split; [reflexivity|]. split; [|split]; cbn [p_rows p_asked].
  - unfold rows_of. cbn [view0 known]. rewrite seen_none by auto. unfold listed. rewrite !map_map. apply map_ext_in. intros a Ha.
    assert (Ep : parent_of (nid a) F = Some None) by (apply (kl_parent None); auto).
    assert (Hi : In (nid a) (ids F)) by (apply roots_ids, in_map; auto).
    unfold setup, render, parent_row, shown_in, level_of. cbn. rewrite Ep.
    destruct (anc_parent (nid a) F W Hi) as (A & EA & [[Q ->]|(b & B & Q & _)]); [|rewrite Ep in Q; discriminate].
    rewrite EA. cbn. rewrite andb_true_r, !andb_false_r. auto.
  - cbn. intros x. split; [intros []|discriminate].
  - constructor; cbn; auto; intros; try discriminate. intros n x D. auto.
Qed.

Lemma step_ok s p e : inv F s p -> calm F s e -> exists p', happen serve p e = Ok p' /\ inv F (view_step F s e) p'.
Proof.
  intros I C. assert (G := proj2 (proj2 I)). destruct e as [n|n|n|n]; cbn [happen view_step calm] in *; [| | |destruct C].
  - rewrite (row_at_ok s p n I). destruct (mem n (seen (opened s) F)) eqn:M; cbn [andb]; [|eauto].
    apply mem_in in M. cbn [u_link is_collapsed u_coll render]. unfold is_collapsed. cbn [u_link u_coll render].
    destruct (has_kids n F) eqn:HK; [|eauto]. cbn [andb].
    destruct (opened s n) eqn:On; cbn [orb negb].
    + destruct (close_ok s p n I M On C) as (rows & -> & I'). cbn [bind]. eauto.
    + destruct (waiting s n) eqn:Wn; cbn [negb]; [destruct (C n Wn); congruence|]. eexists. split; [reflexivity|]. apply expand_ok; auto.
  - rewrite (row_at_ok s p n I). destruct (mem n (seen (opened s) F)) eqn:M; cbn [andb]; [|eauto].
    apply mem_in in M. unfold is_collapsed. cbn [u_link u_coll render].
    destruct (has_kids n F) eqn:HK; cbn [andb]; [|eauto]. destruct (opened s n) eqn:On; cbn [orb negb]; [eauto|].
    destruct (waiting s n) eqn:Wn; cbn [negb]; [eauto|]. eexists. split; [reflexivity|]. apply expand_ok; auto.
  - assert (A := proj1 (proj2 I) n). fold (mem n (p_asked p)). destruct (waiting s n) eqn:Wn.
    + rewrite (proj2 (mem_in _ _)) by (apply A; auto). destruct (g_wk _ _ G n Wn) as (Kn & Hn).
      assert (exists k, children_of n F = Some k) as (k & Ek).
      { destruct (kids_ctx _ _ Hn) as (l & Hl). destruct (Hl Nil) as (f' & Cx). exists l. apply (Ctx_kids_of Cx W). }
      rewrite Served. unfold kid_list. cbn [kids_of]. rewrite Ek. cbn [option_map]. eexists. split; [reflexivity|]. apply arrive_ok; auto.
    + rewrite (proj2 (mem_false _ _)) by (rewrite A; congruence). eauto.
Qed.

Lemma steps_ok es : forall s p, inv F s p -> all_calm F s es ->
  exists p', happens serve p es = Ok p' /\ inv F (fold_left (view_step F) es s) p'.
Proof.
  induction es as [|e es IH]; intros s p I C; cbn [happens fold_left]; [eauto|]. destruct C as (C & Cs).
  destruct (step_ok s p e I C) as (p' & -> & I'). cbn [bind]. auto.
Qed.

Lemma visit_ok es : all_calm F view0 es -> exists p, visit serve es = Ok p /\ inv F (fold_left (view_step F) es view0) p.
Proof.
  intros C. unfold visit. destruct open_ok as (p & -> & I). cbn [bind]. apply steps_ok; auto.
Qed.

(** The rows that are shown. *)
Lemma shown_rows s p : inv F s p -> filter u_shown (p_rows p) = map (render F s) (seen (opened s) F).
Proof.
  intros (E & _ & G). rewrite E. unfold rows_of.
  assert (H : filter (shown_in F s) (seen (known s) F) = seen (opened s) F).
  { assert (Y : forall D, (forall i, In i D -> (shown_in F s i = true <-> In i (seen (opened s) F))) ->
        filter (shown_in F s) D = filter (fun i => mem i (seen (opened s) F)) D).
    { induction D as [|i D IH]; intros H; auto. cbn [filter]. rewrite IH by (intros; apply H; cbn; auto).
      replace (mem i (seen (opened s) F)) with (shown_in F s i); auto. apply eq_true_iff_eq. rewrite mem_in. apply H. cbn; auto. }
    rewrite Y.
    - assert (Z : forall H, wf_ids H -> (forall i, In i (ids H) -> True) -> filter (fun i => mem i (seen (opened s) H)) (seen (known s) H) = seen (opened s) H).
      { assert (Fe : forall (f g : nat -> bool) l, (forall i, In i l -> f i = g i) -> filter f l = filter g l).
        { intros f g. induction l as [|i l IH]; intros H; auto. cbn. rewrite H by (cbn; auto). rewrite IH; auto. intros; apply H; cbn; auto. }
        induction H as [|a k IHk r IHr]; intros WH _; auto.
        destruct (wf_cons_inv WH) as (W1 & W2 & W3 & W4 & W5). cbn [seen].
        set (A := if opened s (nid a) then seen (opened s) k else []). set (B := seen (opened s) r).
        assert (HA : forall x, In x A -> In x (ids k)) by (unfold A; intros x; destruct (opened s (nid a)); [apply seen_ids|intros []]).
        assert (HB : forall x, In x B -> In x (ids r)) by (intros x; apply seen_ids).
        cbn [filter]. rewrite (proj2 (mem_in _ _)) by (cbn; auto). f_equal. rewrite filter_app. f_equal.
        - unfold A. destruct (opened s (nid a)) eqn:Oa.
          + rewrite (g_ok _ _ G _ Oa). etransitivity; [|apply (IHk W3); auto]. apply Fe. intros i Hi. apply eq_true_iff_eq. rewrite !mem_in.
            cbn [In]. rewrite in_app_iff. assert (Hk := seen_ids _ _ _ Hi). split; auto. intros [<-|[|Hb]]; auto; [contradiction|].
            apply HB in Hb. exfalso; eauto.
          + apply filter_none. intros i Hi. apply mem_false. cbn. intros [<-|Hb]; destruct (known s (nid a)); try destruct Hi.
            * apply seen_ids in Hi. contradiction.
            * apply seen_ids in Hi. apply HB in Hb. eauto.
        - unfold B. etransitivity; [|apply (IHr W4); auto]. apply Fe. intros i Hi. apply eq_true_iff_eq. rewrite !mem_in.
          cbn [In]. rewrite in_app_iff. assert (Hk := seen_ids _ _ _ Hi). split; auto. intros [<-|[Ha|]]; auto; [contradiction|].
          apply HA in Ha. exfalso; eauto. }
      apply Z; auto.
    - intros i Hi. rewrite <- (shown_seen s i G). tauto. }
  rewrite <- H. clear H E. induction (seen (known s) F) as [|i D IH]; auto. cbn [map filter]. change (u_shown (render F s i)) with (shown_in F s i).
  destruct (shown_in F s i); cbn [map]; rewrite IH; auto.
Qed.
End Visit.
