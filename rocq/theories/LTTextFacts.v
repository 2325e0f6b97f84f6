(** Path values and their text. *)
From Coq Require Import String Ascii List Arith Lia Bool.
From Verif Require Import Prelude PathTab LTModel LTLabel LTText.
Import ListNotations.

Definition no_dot (l : text) : Prop := ~ In dot l.
Definition no_space (l : text) : Prop := forall c, In c l -> is_space c = false.

(** ** split and join *)
Lemma split_cons s : exists l r, split s = l :: r.
Proof.
  induction s as [|c s (l & r & E)]; cbn; eauto. destruct (Ascii.eqb c dot); eauto. rewrite E. eauto.
Qed.

Lemma split_nodot l : no_dot l -> split l = [l].
Proof.
  induction l as [|c l IH]; cbn; auto. intros H. destruct (Ascii.eqb_spec c dot) as [->|]; [exfalso; apply H; cbn; auto|].
  rewrite IH; auto. intros X. apply H. cbn. auto.
Qed.

Lemma split_app l s : no_dot l -> split (l ++ dot :: s) = l :: split s.
Proof.
  induction l as [|c l IH]; intros H; cbn [app split].
  - rewrite Ascii.eqb_refl. auto.
  - destruct (Ascii.eqb_spec c dot) as [->|]; [exfalso; apply H; cbn; auto|].
    rewrite IH; auto. intros X. apply H. cbn. auto.
Qed.

Lemma split_join p : p <> [] -> Forall no_dot p -> split (join p) = p.
Proof.
  induction p as [|l p IH]; [congruence|]. intros _ H. inversion H as [|? ? H1 H2]; subst.
  destruct p as [|l' p]; [apply split_nodot; auto|]. change (join (l :: l' :: p)) with (l ++ dot :: join (l' :: p)).
  rewrite split_app, IH; auto. discriminate.
Qed.

Lemma join_split s : join (split s) = s.
Proof.
  induction s as [|c s IH]; cbn; auto. destruct (split_cons s) as (l & r & E). rewrite E in *.
  destruct (Ascii.eqb_spec c dot) as [->|].
  - change (join ([] :: l :: r)) with ([] ++ dot :: join (l :: r)). rewrite IH. auto.
  - destruct r; cbn in *; rewrite <- IH; auto.
Qed.

Lemma split_no_dot s : Forall no_dot (split s).
Proof.
  induction s as [|c s IH]; cbn; [repeat constructor; intros []|].
  destruct (Ascii.eqb_spec c dot) as [->|N]; [constructor; auto; intros []|].
  destruct (split s) as [|l r]; [repeat constructor; intros [->|[]]; auto|].
  inversion IH; subst. constructor; auto. intros [->|H]; auto.
Qed.

(** ** strip *)
Lemma lstrip_id s : match s with c :: _ => is_space c = false | [] => True end -> lstrip s = s.
Proof. destruct s as [|c s]; cbn; auto. intros ->. auto. Qed.

Lemma strip_id s : match s with c :: _ => is_space c = false | [] => True end ->
  match rev s with c :: _ => is_space c = false | [] => True end -> strip s = s.
Proof.
  intros H1 H2. unfold strip, rstrip. rewrite (lstrip_id s H1), (lstrip_id _ H2), rev_involutive. auto.
Qed.

Lemma strip_no_space s : no_space s -> strip s = s.
Proof.
  intros H. apply strip_id.
  - destruct s; auto. apply H. cbn. auto.
  - destruct (rev s) eqn:E; auto. apply H. apply in_rev. rewrite E. cbn. auto.
Qed.

Lemma lstrip_suffix s : exists a, s = a ++ lstrip s /\ forall c, In c a -> is_space c = true.
Proof.
  induction s as [|c s (a & E & H)]; cbn; [exists []; split; [auto|intros c []]|].
  destruct (is_space c) eqn:Ec.
  - exists (c :: a). cbn. rewrite <- E. split; auto. intros x [<-|Hx]; auto.
  - exists []. split; [auto|intros x []].
Qed.
Lemma lstrip_head s : match lstrip s with c :: _ => is_space c = false | [] => True end.
Proof. induction s as [|c s IH]; cbn; auto. destruct (is_space c) eqn:E; auto. Qed.

Lemma strip_idem s : strip (strip s) = strip s.
Proof.
  apply strip_id.
  - unfold strip, rstrip. destruct (lstrip_suffix (rev (lstrip s))) as (a & E & H).
    destruct (rev (lstrip (rev (lstrip s)))) as [|c r] eqn:Er; auto.
    assert (X : lstrip s = (c :: r) ++ rev a).
    { rewrite <- Er, <- rev_app_distr, <- E, rev_involutive. auto. }
    assert (Y := lstrip_head s). rewrite X in Y. exact Y.
  - unfold strip, rstrip. rewrite rev_involutive. apply lstrip_head.
Qed.

(** ** Round trips *)
Lemma join_chars p c : In c (join p) -> c = dot \/ exists l, In l p /\ In c l.
Proof.
  induction p as [|l p IH]; [intros []|]. destruct p as [|l' p].
  - cbn. intros H. right. exists l. auto.
  - change (join (l :: l' :: p)) with (l ++ dot :: join (l' :: p)). rewrite in_app_iff. intros [H|[H|H]]; auto.
    + right. exists l. cbn. auto.
    + destruct (IH H) as [E|(x & Hx & Hc)]; auto. right. exists x. split; auto. cbn. auto.
Qed.

(** Text and back, for every path of non-empty labels without dots and blanks. *)
Theorem path_roundtrip p : Forall (fun l => l <> [] /\ no_dot l /\ no_space l) p ->
  path_value (VStr (path_str p)) = Ok p.
Proof.
  intros H. unfold path_str. destruct p as [|l p]; auto.
  assert (Sp : no_space (join (l :: p))).
  { intros c Hc. apply join_chars in Hc. destruct Hc as [->|(x & Hx & Hc)]; [reflexivity|].
    rewrite Forall_forall in H. apply (H x Hx). auto. }
  assert (N : join (l :: p) <> []).
  { inversion H as [|? ? (H1 & _) _]; subst. destruct p; cbn; auto. destruct l; cbn; congruence. }
  unfold path_value. destruct (join (l :: p)) as [|c s] eqn:E; [congruence|]. rewrite <- E in *.
  rewrite strip_no_space by auto. f_equal. apply split_join; [discriminate|].
  eapply Forall_impl; [|exact H]. intros a (_ & A & _). exact A.
Qed.

(** Back to text: only blanks at the ends are lost. *)
Theorem text_roundtrip s p : path_value (VStr s) = Ok p -> path_str p = strip s.
Proof.
  destruct s as [|c s]; cbn [path_value]; intros E; injection E as <-; [reflexivity|]. apply join_split.
Qed.

(** A value read from text is read again from its own text, except from blank text. *)
Theorem value_again s p : path_value (VStr s) = Ok p -> (s = [] \/ strip s <> []) ->
  path_value (VStr (path_str p)) = Ok p.
Proof.
  intros E H. rewrite (text_roundtrip s p E). destruct s as [|c s]; [exact E|].
  destruct H as [H|H]; [discriminate|]. cbn [path_value] in E. injection E as <-.
  unfold path_value. destruct (strip (c :: s)) eqn:Es; [congruence|]. rewrite <- Es, strip_idem. auto.
Qed.

(** Through the database. *)
Theorem db_roundtrip p : Forall (fun l => l <> [] /\ no_dot l /\ no_space l) p ->
  exists s, get_db_prep_value (VList p) = Ok (Some s) /\ get_prep_value (VList p) = Ok (Some s) /\
            from_db_value (Some s) = Ok (Some p) /\ to_python (VStr s) = Ok (Some p).
Proof.
  intros H. exists (path_str p). cbn [get_db_prep_value get_prep_value from_db_value to_python].
  rewrite (path_roundtrip p H). auto.
Qed.

(** ** The validator *)
Lemma match_star_set f s : rmatch (RStar (RSet f)) s <-> forall c, In c s -> f c = true.
Proof.
  split.
  - remember (RStar (RSet f)) as r. induction 1 as [| |a|a s s' H1 _ H2 IH]; try discriminate; [intros c []|].
    injection Heqr as ->. inversion H1; subst. intros c' [<-|Hc]; auto.
  - induction s as [|c s IH]; intros H; [constructor|]. change (c :: s) with ([c] ++ s). constructor.
    + constructor. apply H. cbn. auto.
    + apply IH. intros x Hx. apply H. cbn. auto.
Qed.

Lemma match_plus_set f s : rmatch (RPlus (RSet f)) s <-> s <> [] /\ forall c, In c s -> f c = true.
Proof.
  unfold RPlus. split.
  - intros H. inversion H as [|? ? u v H1 H2| |]; subst. inversion H1; subst. cbn. split; [discriminate|].
    rewrite match_star_set in H2. intros x [<-|Hx]; auto.
  - intros [N H]. destruct s as [|c s]; [congruence|]. change (c :: s) with ([c] ++ s). constructor.
    + constructor. apply H. cbn. auto.
    + apply match_star_set. intros x Hx. apply H. cbn. auto.
Qed.

Definition good_label (l : text) : Prop := l <> [] /\ forall c, In c l -> label_char c = true.

Definition tail_text (r : list text) : text := concat (map (cons dot) r).

Lemma join_tail l r : join (l :: r) = l ++ tail_text r.
Proof.
  revert l. induction r as [|x r IH]; intros l; [cbn; rewrite app_nil_r; auto|].
  change (join (l :: x :: r)) with (l ++ dot :: join (x :: r)). rewrite IH. reflexivity.
Qed.

Lemma match_tail s : rmatch (RStar (RSeq (RSet (Ascii.eqb dot)) (RPlus (RSet label_char)))) s <->
  exists r, s = tail_text r /\ Forall good_label r.
Proof.
  split.
  - remember (RStar (RSeq (RSet (Ascii.eqb dot)) (RPlus (RSet label_char)))) as R.
    induction 1 as [| |a|a s s' H1 _ H2 IH]; try discriminate; [exists []; auto|].
    injection HeqR as ->. destruct (IH eq_refl) as (r & -> & Hr).
    inversion H1 as [|? ? u v X1 X2| |]; subst. inversion X1 as [? c Hc| | |]; subst. apply Ascii.eqb_eq in Hc. subst c.
    apply match_plus_set in X2. exists (v :: r). split; [|constructor; auto]. unfold tail_text. cbn. auto.
  - intros (r & -> & H). induction H as [|l r Hl _ IH]; [constructor|].
    change (tail_text (l :: r)) with (([dot] ++ l) ++ tail_text r). constructor; auto. constructor.
    + constructor. apply Ascii.eqb_refl.
    + apply match_plus_set. auto.
Qed.

(** The texts that the validator accepts: labels of the allowed characters joined by
    dots; a newline may follow. *)
Theorem accepted_iff s : accepted s <->
  exists p, p <> [] /\ Forall good_label p /\ (s = path_str p \/ s = path_str p ++ [newline]).
Proof.
  unfold accepted, path_regex, path_str. split.
  - intros (m & H & E). inversion H as [|? ? u v H1 H2| |]; subst.
    apply match_plus_set in H1. apply match_tail in H2. destruct H2 as (r & -> & Hr).
    exists (u :: r). split; [discriminate|]. split; [constructor; auto|]. rewrite join_tail. auto.
  - intros ([|l r] & N & H & E); [congruence|]. inversion H as [|? ? H1 H2]; subst. rewrite join_tail in E.
    exists (l ++ tail_text r). split; auto. constructor; [apply match_plus_set; auto|]. apply match_tail. eauto.
Qed.

(** ** Generated paths *)
Lemma char_in i : i < 36 -> exists n, n = (if i <? 10 then 48 + i else 55 + i) /\ n < 256 /\ nat_of_ascii (char_of i) = n.
Proof.
  intros H. eexists. split; [reflexivity|]. assert (E : (if i <? 10 then 48 + i else 55 + i) < 256).
  { destruct (i <? 10); lia. }
  split; auto. unfold char_of. apply nat_ascii_embedding. auto.
Qed.

Lemma char_of_ok i : i < 36 -> label_char (char_of i) = true /\ is_space (char_of i) = false /\ char_of i <> dot.
Proof.
  intros H. do 36 (destruct i as [|i]; [vm_compute; repeat split; discriminate|]). lia.
Qed.

Lemma char_of_lt i j : i < 36 -> j < 36 -> (nat_of_ascii (char_of i) <? nat_of_ascii (char_of j)) = (i <? j).
Proof.
  intros Hi Hj. destruct (char_in i Hi) as (n & En & _ & ->), (char_in j Hj) as (m & Em & _ & ->). subst n m.
  apply eq_true_iff_eq. rewrite !Nat.ltb_lt. destruct (Nat.ltb_spec i 10), (Nat.ltb_spec j 10); lia.
Qed.

(** Labels are compared as their texts, byte by byte. *)
Definition text_lt : text -> text -> bool := llt (fun a b => nat_of_ascii a <? nat_of_ascii b).

Lemma label_text_lt a b : alpha a -> alpha b -> text_lt (label_text a) (label_text b) = lblt a b.
Proof.
  unfold text_lt, lblt, label_text. revert b. induction a as [|x a IH]; intros [|y b] Ha Hb; cbn [map llt]; auto.
  inversion Ha as [|? ? Hx Ha']; subst. inversion Hb as [|? ? Hy Hb']; subst.
  rewrite !char_of_lt by auto. rewrite IH by auto. auto.
Qed.

Lemma label_text_ok l : alpha l -> l <> [] -> good_label (label_text l) /\ no_dot (label_text l) /\ no_space (label_text l).
Proof.
  intros H N. unfold label_text. split; [split|split].
  - destruct l; cbn; congruence.
  - intros c Hc. apply in_map_iff in Hc. destruct Hc as (i & <- & Hi). unfold alpha in H. rewrite Forall_forall in H. apply char_of_ok; auto.
  - intros Hc. apply in_map_iff in Hc. destruct Hc as (i & E & Hi). unfold alpha in H. rewrite Forall_forall in H.
    destruct (char_of_ok i) as (_ & _ & X); auto.
  - intros c Hc. apply in_map_iff in Hc. destruct Hc as (i & <- & Hi). unfold alpha in H. rewrite Forall_forall in H. apply char_of_ok; auto.
Qed.

(** Every path of labels over the alphabet has a text that the validator accepts and that
    is read back. *)
Theorem path_text_ok p : p <> [] -> Forall (fun l => l <> [] /\ alpha l) p ->
  accepted (path_str (path_text p)) /\ path_value (VStr (path_str (path_text p))) = Ok (path_text p).
Proof.
  intros N H. split.
  - apply accepted_iff. exists (path_text p). split; [destruct p; cbn; congruence|]. split; auto.
    unfold path_text. apply Forall_forall. intros l Hl. apply in_map_iff in Hl. destruct Hl as (x & <- & Hx).
    rewrite Forall_forall in H. destruct (H x Hx). apply label_text_ok; auto.
  - apply path_roundtrip. unfold path_text. apply Forall_forall. intros l Hl. apply in_map_iff in Hl. destruct Hl as (x & <- & Hx).
    rewrite Forall_forall in H. destruct (H x Hx) as [Hn Ha]. destruct (label_text_ok x Ha Hn) as ([X _] & Y & Z). auto.
Qed.

(** The texts of different paths are different. *)
Theorem path_text_inj p q : Forall (fun l => l <> [] /\ alpha l) p -> Forall (fun l => l <> [] /\ alpha l) q ->
  path_str (path_text p) = path_str (path_text q) -> p = q.
Proof.
  assert (V : forall p, Forall (fun l => l <> [] /\ alpha l) p -> path_value (VStr (path_str (path_text p))) = Ok (path_text p)).
  { intros [|l r] H; [reflexivity|]. apply path_text_ok; [discriminate|auto]. }
  assert (Inj : forall a b, alpha a -> alpha b -> label_text a = label_text b -> a = b).
  { unfold label_text. induction a as [|x a IH]; intros [|y b] Ha Hb E; try discriminate; auto.
    injection E as E1 E2. inversion Ha; subst. inversion Hb; subst. f_equal; auto.
    assert (X := char_of_lt x y ltac:(auto) ltac:(auto)). assert (Y := char_of_lt y x ltac:(auto) ltac:(auto)).
    rewrite E1, Nat.ltb_irrefl in X, Y. symmetry in X, Y. apply Nat.ltb_ge in X, Y. lia. }
  intros Hp Hq E. assert (Ep := V p Hp). assert (Eq := V q Hq). rewrite E, Eq in Ep. injection Ep as Ep. clear E Eq V.
  revert q Hq Ep. induction p as [|a p IH]; intros [|b q] Hq Ep; try discriminate; auto.
  cbn in Ep. injection Ep as E1 E2. inversion Hp as [|? ? [_ A] Hp']; subst. inversion Hq as [|? ? [_ B] Hq']; subst.
  f_equal; auto.
Qed.

(** A generated path. *)
Theorem generated_ok prefix b a skip p : Forall (fun l => l <> [] /\ alpha l) prefix ->
  (forall x, a = Some x -> alpha x) ->
  generate_path prefix b a skip = Ok p -> accepted (path_str (path_text p)).
Proof.
  intros Hp Ha E. unfold generate_path in E. destruct (generate_label _ b a) as [l|] eqn:El; [|discriminate].
  cbn in E. injection E as <-. apply path_text_ok; [destruct prefix; discriminate|]. apply Forall_app. split; auto.
  constructor; auto. apply generate_sound in El; auto. destruct El as (N & C & _). split; auto.
  eapply Forall_impl; [|exact C]. intros c Hc. apply choices_incl in Hc. unfold digits10, upper26 in Hc.
  apply in_app_iff in Hc. rewrite !in_seq in Hc. lia.
Qed.
