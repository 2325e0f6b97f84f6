(** What a browser shows for the options of the menu, and the proofs for MenuModel.v. *)
From Coq Require Import String Ascii List Arith Bool ZArith Lia.
From Verif Require Import Prelude Forest SpecFacts SpecSane AnnModel AnnFacts FormModel FormSpec FormSorted BulkDump PropsForm PropsAnn MenuModel.
Import ListNotations.

(** ** Reading HTML *)

(** The character references used: their names and what they stand for. *)
Definition references : list (text * nat) :=
  [(lit "amp", 38); (lit "lt", 60); (lit "gt", 62); (lit "quot", 34); (lit "#x27", 39); (lit "nbsp", 160)].

(** [reads h s]: the HTML [h] has no tags and a browser shows it as [s]. *)
Inductive reads : text -> text -> Prop :=
| reads_nil : reads [] []
| reads_char c h s : c <> 38 -> c <> 60 -> reads h s -> reads (c :: h) (c :: s)
| reads_ref name c h s : In (name, c) references -> reads h s -> reads (38 :: name ++ 59 :: h) (c :: s).

Lemma refs_inj n1 c1 n2 c2 h1 h2 : In (n1, c1) references -> In (n2, c2) references ->
  n1 ++ 59 :: h1 = n2 ++ 59 :: h2 -> c1 = c2 /\ h1 = h2.
Proof.
  intros H1 H2. repeat (destruct H1 as [E1|H1]; [injection E1 as <- <-|]); try destruct H1;
  repeat (destruct H2 as [E2|H2]; [injection E2 as <- <-; cbn; intros E; inversion E; auto|]); destruct H2.
Qed.

Lemma reads_det h s1 s2 : reads h s1 -> reads h s2 -> s1 = s2.
Proof.
  intros R. revert s2. induction R as [|c h s N1 N2 R IH|name c h s I R IH]; intros s2 R2; inversion R2; subst; auto; try congruence.
  - f_equal. auto.
  - match goal with HI : In _ references, HE : _ ++ _ = _ ++ _ |- _ => destruct (refs_inj _ _ _ _ _ _ HI I HE) as [<- <-] end.
    f_equal. auto.
Qed.

Lemma reads_app h1 s1 h2 s2 : reads h1 s1 -> reads h2 s2 -> reads (h1 ++ h2) (s1 ++ s2).
Proof.
  intros R1 R2. induction R1 as [|c h s N1 N2 R IH|name c h s I R IH]; auto.
  - apply reads_char; auto.
  - cbn [app]. rewrite <- app_assoc. apply reads_ref; auto.
Qed.

Lemma replace_app c new s t : replace c new (s ++ t) = replace c new s ++ replace c new t.
Proof. unfold replace. apply flat_map_app. Qed.

Lemma escape_app s t : html_escape (s ++ t) = html_escape s ++ html_escape t.
Proof. unfold html_escape. now rewrite !replace_app. Qed.

(** One character after the other is the same as all at once. *)
Lemma escape_char c : html_escape [c] =
  match find (fun x => snd x =? c) (firstn 5 references) with Some (name, _) => 38 :: name ++ [59] | None => [c] end.
Proof.
  destruct (Nat.eq_dec c 38) as [->|N1]; [reflexivity|]. destruct (Nat.eq_dec c 60) as [->|N2]; [reflexivity|].
  destruct (Nat.eq_dec c 62) as [->|N3]; [reflexivity|]. destruct (Nat.eq_dec c 34) as [->|N4]; [reflexivity|].
  destruct (Nat.eq_dec c 39) as [->|N5]; [reflexivity|].
  assert (K : forall d new, c <> d -> replace d new [c] = [c]).
  { intros d new N. unfold replace. cbn [flat_map]. apply Nat.eqb_neq in N. rewrite N. auto. }
  unfold html_escape. rewrite !K by auto.
  cbn [references firstn find snd]. apply not_eq_sym in N1, N2, N3, N4, N5.
  apply Nat.eqb_neq in N1, N2, N3, N4, N5. rewrite N1, N2, N3, N4, N5. auto.
Qed.

Lemma reads_escape s : reads (html_escape s) s.
Proof.
  induction s as [|c s IH]; [apply reads_nil|]. change (c :: s) with ([c] ++ s). rewrite escape_app.
  apply reads_app; auto. clear. rewrite escape_char.
  destruct (find _ _) as [(name, d)|] eqn:E.
  - apply find_some in E. destruct E as (I & E). apply Nat.eqb_eq in E. cbn [snd] in E. subst d.
    apply (reads_ref name c [] []); [|apply reads_nil]. cbn [firstn references In] in *. tauto.
  - apply reads_char; [| |apply reads_nil]; intros ->; discriminate E.
Qed.

(** ** Labels *)

(** Four no-break spaces for every level but the first *)
Definition indented (d : nat) : text := repeat 160 (4 * (d - 1)).

Lemma indent_html d : chars (get_indent (Z.of_nat d)) = concat (repeat (lit "&nbsp;&nbsp;&nbsp;&nbsp;") (d - 1)).
Proof. unfold get_indent. cbn [mark_safe times chars conditional_escape depth_separator safe]. do 2 f_equal. lia. Qed.

Lemma reads_indent d : reads (chars (get_indent (Z.of_nat d))) (indented d).
Proof.
  rewrite indent_html. unfold indented. induction (d - 1) as [|k IH]; [apply reads_nil|].
  replace (4 * S k) with (4 + 4 * k) by lia. rewrite repeat_app. cbn [repeat concat]. apply reads_app; auto.
  change (lit "&nbsp;&nbsp;&nbsp;&nbsp;") with
    (38 :: lit "nbsp" ++ 59 :: 38 :: lit "nbsp" ++ 59 :: 38 :: lit "nbsp" ++ 59 :: 38 :: lit "nbsp" ++ 59 :: []).
  assert (I : In (lit "nbsp", 160) references) by (cbn; tauto).
  do 4 (apply reads_ref; [exact I|]). apply reads_nil.
Qed.

Lemma label_html s d : option_html (None, label_from_instance s d) =
  (None, chars (get_indent d) ++ chars (conditional_escape s)).
Proof. reflexivity. Qed.

Lemma reads_label s d : safe s = false -> reads (chars (label_from_instance s (Z.of_nat d))) (indented d ++ chars s).
Proof.
  intros Hs. unfold label_from_instance. cbn [mark_safe plus chars]. apply reads_app.
  - unfold conditional_escape at 1. cbn [get_indent mark_safe safe]. apply reads_indent.
  - unfold conditional_escape. rewrite Hs. apply reads_escape.
Qed.

(** ** The nodes without a branch *)

Lemma remove_absent n (F : forest node) : ~ In n (ids F) -> remove n F = F.
Proof.
  induction F as [|a k IHk r IHr]; auto. unfold ids in *. cbn [preorder map In remove]. rewrite map_app, in_app_iff.
  intros H. destruct (Nat.eqb_spec (nid a) n); [tauto|]. rewrite IHk, IHr; tauto.
Qed.

Lemma filter_all {A} (P : A -> bool) l : (forall x, In x l -> P x = true) -> filter P l = l.
Proof. induction l as [|a l IH]; auto. cbn. intros H. rewrite H, IH; auto. Qed.
Lemma filter_none {A} (P : A -> bool) l : (forall x, In x l -> P x = false) -> filter P l = [].
Proof. induction l as [|a l IH]; auto. cbn. intros H. rewrite H, IH; auto. Qed.

Lemma remove_incl n (F : forest node) : forall d, incl (preorder_d d (remove n F)) (preorder_d d F).
Proof.
  induction F as [|a k IHk r IHr]; intros d; [apply incl_refl|]. cbn [remove]. destruct (nid a =? n).
  - intros x Hx. right. apply in_app_iff. auto.
  - intros x [Hx|Hx]; [left; auto|]. right. apply in_app_iff in Hx. apply in_app_iff. destruct Hx; [left; apply IHk|right; apply IHr]; auto.
Qed.

Lemma offered_remove n F : wf_ids F -> offered n F = preorder (remove n F).
Proof.
  unfold offered. induction F as [|a k IHk r IHr]; auto. intros W. destruct (wf_cons a k r W) as (Nk & Nr & Wk & Wr & D).
  assert (Ka : forall x, In x (preorder k) -> nid x <> nid a) by (intros x Hx E; apply Nk; rewrite <- E; apply (in_map nid); auto).
  assert (Ra : forall x, In x (preorder r) -> nid x <> nid a) by (intros x Hx E; apply Nr; rewrite <- E; apply (in_map nid); auto).
  assert (Abs : forall G, ~ In n (ids G) -> children_of n G = None).
  { intros G H. destruct (children_of n G) as [l|] eqn:E; auto. destruct (children_in n l G E). tauto. }
  assert (Out : forall G (L : list nat), (forall x, In x (preorder G) -> nid x <> n /\ ~ In (nid x) L) ->
    filter (fun b => negb (nid b =? n) && negb (existsb (fun i => nid b =? i) L)) (preorder G) = preorder G).
  { intros G L H. apply filter_all. intros x Hx. destruct (H x Hx) as [H1 H2]. apply andb_true_iff. rewrite !negb_true_iff, Nat.eqb_neq.
    split; auto. apply not_true_iff_false. rewrite existsb_exists. intros (i & Hi & E). apply Nat.eqb_eq in E. subst i. auto. }
  cbn [children_of remove preorder filter]. destruct (Nat.eqb_spec (nid a) n) as [E|E].
  - cbn [negb andb]. rewrite filter_app. rewrite filter_none; cbn [app].
    + apply Out. intros x Hx. split; [rewrite <- E; auto|]. intros Hi. apply (D (nid x)); auto. apply (in_map nid); auto.
    + intros x Hx. apply andb_false_iff. right. apply negb_false_iff, existsb_exists. exists (nid x). rewrite Nat.eqb_refl.
      split; auto. apply (in_map nid); auto.
  - cbn [negb andb]. assert (Ha : forall L, incl L (ids k) \/ incl L (ids r) -> existsb (fun i => nid a =? i) L = false).
    { intros L HL. apply not_true_iff_false. rewrite existsb_exists. intros (i & Hi & Ei). apply Nat.eqb_eq in Ei. subst i.
      destruct HL as [HL|HL]; apply HL in Hi; auto. }
    assert (Sub : forall G l, children_of n G = Some l -> incl (ids l) (ids G)).
    { intros G l Hl. apply (children_in n l G Hl). }
    destruct (in_dec Nat.eq_dec n (ids k)) as [Hk|Hk].
    + destruct (children_some n k Hk) as (l & El). rewrite El in *.
      rewrite Ha by (left; apply (Sub k); auto). cbn [negb]. rewrite filter_app, IHk by auto. cbn [preorder]. do 2 f_equal.
      rewrite (remove_absent n r) by (intros C; apply (D n); auto).
      apply Out. intros x Hx. split; [intros Ex; apply (D n); auto; rewrite <- Ex; apply (in_map nid); auto|].
      intros C. apply (D (nid x)); [apply (Sub k l); auto|]. apply (in_map nid); auto.
    + rewrite (Abs k Hk). rewrite (remove_absent n k Hk). destruct (in_dec Nat.eq_dec n (ids r)) as [Hr|Hr].
      * destruct (children_some n r Hr) as (l & El). rewrite El in *.
        rewrite Ha by (right; apply (Sub r); auto). cbn [negb preorder]. rewrite filter_app, IHr by auto. do 2 f_equal.
        apply Out. intros x Hx. split; [intros Ex; apply Hk; rewrite <- Ex; apply (in_map nid); auto|].
        intros C. apply (D (nid x)); [apply (in_map nid); auto|]. apply (Sub r l); auto.
      * rewrite (Abs r Hr). cbn [existsb negb preorder]. rewrite filter_app, (remove_absent n r Hr). do 2 f_equal.
        -- apply (Out k []). intros x Hx. split; [intros Ex; apply Hk; rewrite <- Ex; apply (in_map nid); auto|auto].
        -- apply (Out r []). intros x Hx. split; [intros Ex; apply Hr; rewrite <- Ex; apply (in_map nid); auto|auto].
Qed.

(** ** The levels determine the forest *)
Definition shallow {A} (d : nat) (l : list (nat * A)) : Prop := match l with [] => True | x :: _ => fst x < d end.

Lemma outline_inj {A} : forall (F : forest A) d G X Y, shallow d X -> shallow d Y ->
  preorder_d d F ++ X = preorder_d d G ++ Y -> F = G /\ X = Y.
Proof.
  induction F as [|a k IHk r IHr]; intros d [|b k' r'] X Y HX HY E; cbn [preorder_d app] in E; auto.
  - destruct X as [|x X]; [discriminate|]. injection E as -> _. cbn in HX. lia.
  - destruct Y as [|x Y]; [discriminate|]. injection E as <- _. cbn in HY. lia.
  - injection E as <- E. rewrite <- !app_assoc in E.
    assert (Sh : forall (f : forest A) Z, shallow d Z -> shallow (S d) (preorder_d d f ++ Z)).
    { intros [|c ? ?] Z HZ; cbn; [|lia]. destruct Z; cbn in *; auto. }
    destruct (IHk (S d) k' _ _ (Sh r X HX) (Sh r' Y HY) E) as [-> E'].
    destruct (IHr d r' X Y HX HY E') as [-> ->]. auto.
Qed.

Lemma outline_fmap {A B} (g : A -> B) (F : forest A) : forall d,
  preorder_d d (fmap g F) = map (fun x => (fst x, g (snd x))) (preorder_d d F).
Proof. induction F as [|a k IHk r IHr]; intros d; auto. cbn [fmap preorder_d map fst snd]. rewrite map_app, IHk, IHr. auto. Qed.

(** ** The menu *)
Section Menu.
Variable str_of : node -> str.
Hypothesis plain : forall a, safe (str_of a) = false.

(** What the options for the nodes of [F] have to be: the primary key as value, and the text
    of the node indented by its level. *)
Definition shows_tree (F : forest node) (opts : list (option nat * text)) : Prop :=
  Forall2 (fun o x => fst o = Some (nid (snd x)) /\ reads (snd o) (indented (fst x) ++ chars (str_of (snd x))))
    opts (preorder_d 1 F).

Lemma choices_shown F : forall rows, rows = leveled 1 F -> shows_tree F (map option_html (map (choice str_of) rows)).
Proof.
  intros rows ->. unfold leveled, shows_tree. generalize (preorder_d 1 F). intros L.
  induction L as [|x L IH]; [constructor|]. cbn [map]. constructor; auto. split; auto.
  cbn [choice option_html fst snd]. unfold conditional_escape at 1. cbn [label_from_instance mark_safe safe].
  apply reads_label. auto.
Qed.

(** The menu of a node of the tree leaves its branch out. *)
Definition open_to (n : option nat) (F : forest node) : forest node := match n with Some n => remove n F | None => F end.

Lemma rows_leveled {R} (g : R -> node) (dep : R -> Z) F n (rows : list R) : wf_ids F ->
  map g rows = match n with Some n => offered n F | None => preorder F end ->
  (forall r, In r rows -> exists l, ancestors_of (nid (g r)) F = Some l /\ dep r = Z.of_nat (S (length l))) ->
  map (fun r => (g r, dep r)) rows = leveled 1 (open_to n F).
Proof.
  intros W E H. apply (listed_levels g dep F 1 (open_to n F) rows W); auto.
  - destruct n as [n|]; [apply remove_incl|apply incl_refl].
  - rewrite E. destruct n as [n|]; auto. apply offered_remove. auto.
Qed.

(** The texts of the options give the tree away, if no node has a text that starts with a no-break space. *)
Lemma indented_inj d e s t : 1 <= d -> 1 <= e -> hd_error s <> Some 160 -> hd_error t <> Some 160 ->
  indented d ++ s = indented e ++ t -> d = e /\ s = t.
Proof.
  intros Hd He Hs Ht E. unfold indented in E.
  assert (K : forall i j, repeat 160 i ++ s = repeat 160 j ++ t -> i = j /\ s = t).
  { induction i as [|i IH]; intros [|j] X; cbn [repeat app] in X; auto.
    - subst s. destruct Hs. auto.
    - subst t. destruct Ht. auto.
    - injection X as X. destruct (IH j X). auto. }
  destruct (K _ _ E). split; auto. lia.
Qed.
End Menu.
