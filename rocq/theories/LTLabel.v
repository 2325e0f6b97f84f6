(** generate_label (C29): what it returns, when it raises. *)
From Coq Require Import List Arith Lia Bool.
From Verif Require Import Prelude PathTab LTModel.
Import ListNotations.

#[global] Arguments lblt : simpl never.
#[global] Arguments plt : simpl never.

Definition alpha (l : label) : Prop := Forall (fun c => c < 36) l.

(** *** The order of labels *)
Lemma nlt_irr x : Nat.ltb x x = false. Proof. apply Nat.ltb_irrefl. Qed.
Lemma nlt_tr x y z : Nat.ltb x y = true -> Nat.ltb y z = true -> Nat.ltb x z = true.
Proof. rewrite !Nat.ltb_lt. lia. Qed.
Lemma nlt_tot x y : Nat.ltb x y = false -> Nat.ltb y x = false -> x = y.
Proof. rewrite !Nat.ltb_ge. lia. Qed.

Lemma lblt_irr x : lblt x x = false.
Proof. apply llt_irr. apply nlt_irr. Qed.
Lemma lblt_tr x y z : lblt x y = true -> lblt y z = true -> lblt x z = true.
Proof. apply llt_trans; eauto using nlt_irr, nlt_tr, nlt_tot. Qed.
Lemma lblt_tot x y : lblt x y = false -> lblt y x = false -> x = y.
Proof. apply llt_total; eauto using nlt_irr, nlt_tr, nlt_tot. Qed.
Lemma lblt_asym x y : lblt x y = true -> lblt y x = false.
Proof. intros H. destruct (lblt y x) eqn:E; auto. rewrite <- (lblt_irr x). symmetry. eapply lblt_tr; eauto. Qed.
Lemma lbeq_iff x y : lbeq x y = true <-> x = y.
Proof. apply leq_iff; eauto using nlt_irr, nlt_tr, nlt_tot. Qed.
Lemma lblt_le_tr x y z : lblt y x = false -> lblt y z = true -> lblt x z = true.
Proof.
  intros H1 H2. destruct (lblt x y) eqn:E; [eapply lblt_tr; eauto|]. rewrite (lblt_tot _ _ E H1). auto.
Qed.

Lemma lblt_ext a b : b <> [] -> lblt a (a ++ b) = true.
Proof. intros H. apply llt_self_app; auto using nlt_irr. Qed.

(** a0 is the next label after a. *)
Lemma lblt_succ a : forall b, lblt a b = true -> b <> a ++ [0] -> lblt (a ++ [0]) b = true.
Proof.
  unfold lblt. induction a as [|x a IH]; intros [|y b]; cbn [llt app]; try discriminate.
  - intros _ H. destruct y as [|y]; cbn; auto. destruct b; [congruence|]. auto.
  - intros H N. destruct (Nat.ltb_spec x y) as [L1|L1]; auto. destruct (Nat.ltb_spec y x) as [L|L]; cbn [orb andb negb] in *; [discriminate|].
    assert (x = y) by lia. subst y. apply IH; auto. congruence.
Qed.

(** *** The loops *)
Lemma loop_chars_found body cs l : loop_chars body cs = Found l -> exists c, In c cs /\ body c = Found l.
Proof.
  induction cs as [|c cs IH]; cbn; [discriminate|]. destruct (body c) as [| |l'] eqn:E.
  - intros H. destruct (IH H) as (d & Hd & Ed). eauto.
  - discriminate.
  - intros H. injection H as ->. eauto.
Qed.

Lemma loop_found test lists : forall acc l, loop_product test lists acc = Found l ->
  exists w, Forall2 (fun c cs => In c cs) w lists /\ test (acc ++ w) = Found l.
Proof.
  induction lists as [|cs ls IH]; intros acc l; cbn.
  - intros H. exists []. rewrite app_nil_r. auto.
  - intros H. apply loop_chars_found in H. destruct H as (c & Hc & H). apply IH in H. destruct H as (w & Hw & H).
    exists (c :: w). split; [constructor; auto|]. rewrite <- app_assoc in H. auto.
Qed.

Lemma loop_len_found test lists n : forall i l, loop_len test lists i n = Some l ->
  exists j w, i <= j < i + n /\ Forall2 (fun c cs => In c cs) w (firstn (S j) lists) /\ test w = Found l.
Proof.
  induction n as [|n IH]; intros i l; [discriminate|]. cbn [loop_len].
  destruct (loop_product test (firstn (S i) lists) []) as [| |l'] eqn:E.
  - intros H. destruct (IH _ _ H) as (j & w & Hj & H1 & H2). exists j, w. split; [lia|auto].
  - intros H. destruct (IH _ _ H) as (j & w & Hj & H1 & H2). exists j, w. split; [lia|auto].
  - intros H. injection H as <-. apply loop_found in E. destruct E as (w & Hw & E). exists i, w. split; [lia|auto].
Qed.

(** If some length's first candidate is accepted then a label is found. *)
Lemma loop_first test lists w : forall acc l, Forall2 (fun c cs => hd_error cs = Some c) w lists ->
  test (acc ++ w) = Found l -> loop_product test lists acc = Found l.
Proof.
  revert lists. induction w as [|c w IH]; intros lists acc l H Ht; inversion H as [|? cs ? ls Hc Hl]; subst; cbn.
  - rewrite app_nil_r in Ht. auto.
  - destruct cs as [|d cs]; [discriminate|]. injection Hc as ->. cbn.
    rewrite (IH ls (acc ++ [c]) l); auto. rewrite <- app_assoc. auto.
Qed.

Lemma loop_len_some test lists n : forall i j l, i <= j < i + n -> loop_product test (firstn (S j) lists) [] = Found l ->
  exists l', loop_len test lists i n = Some l'.
Proof.
  induction n as [|n IH]; intros i j l Hj H; [lia|]. cbn [loop_len].
  destruct (loop_product test (firstn (S i) lists) []) eqn:E; eauto.
  - apply (IH (S i) j l); auto. assert (i <> j) by congruence. lia.
  - apply (IH (S i) j l); auto. assert (i <> j) by congruence. lia.
Qed.

(** *** The character lists *)
Lemma chars_from_in choices c : In c choices -> exists r, chars_from choices c = Some (c :: r) /\ incl (c :: r) choices.
Proof.
  induction choices as [|x r IH]; [intros []|]. cbn. destruct (Nat.eqb_spec x c) as [->|N].
  - intros _. exists r. split; auto. apply incl_refl.
  - intros [->|H]; [tauto|]. destruct (IH H) as (r' & E & I). exists r'. split; auto. apply incl_tl. auto.
Qed.

Lemma char_lists_in choices s : Forall (fun c => In c choices) s -> choices <> [] ->
  exists lists, char_lists choices s = Some lists /\ length lists = S (length s) /\
    Forall (fun cs => incl cs choices) lists /\ Forall2 (fun c cs => hd_error cs = Some c) (s ++ [hd 0 choices]) lists.
Proof.
  intros H N. induction H as [|c s Hc _ IH]; cbn.
  - exists [choices]. split; auto. split; auto. split; [constructor; auto using incl_refl|].
    constructor; auto. destruct choices; [congruence|auto].
  - destruct IH as (ls & -> & L & I & F). destruct (chars_from_in _ _ Hc) as (r & -> & Ir).
    exists ((c :: r) :: ls). split; auto. split; [cbn; auto|]. split; constructor; auto.
Qed.

Lemma full_alpha c : In c (digits10 ++ upper26) <-> c < 36.
Proof. unfold digits10, upper26. rewrite in_app_iff, !in_seq. lia. Qed.

(** *** Candidates *)
Lemma try_found skip before after w l : try_label skip before after w = Found l -> w = l /\ ~ In l skip /\
  (forall a, after = Some a -> lblt a l = true) /\ (forall b, before = Some b -> lblt l b = true).
Proof.
  unfold try_label.
  destruct (match after with Some a => lblt_eq w a | None => false end) eqn:E1; [discriminate|].
  destruct (existsb (lbeq w) skip) eqn:E2; [discriminate|].
  destruct (match before with Some b => lblt_eq b w | None => false end) eqn:E3; [discriminate|].
  intros H. injection H as <-. split; auto. split; [|split].
  - intros Hin. rewrite (proj2 (existsb_exists _ _)) in E2; [discriminate|]. exists w. split; auto. apply lbeq_iff. auto.
  - intros a ->. unfold lblt_eq in E1. apply negb_false_iff in E1. auto.
  - intros b ->. unfold lblt_eq in E3. apply negb_false_iff in E3. auto.
Qed.

Lemma try_ok skip before after w : ~ In w skip ->
  (forall a, after = Some a -> lblt a w = true) -> (forall b, before = Some b -> lblt w b = true) ->
  try_label skip before after w = Found w.
Proof.
  intros Hs Ha Hb. unfold try_label.
  replace (match after with Some a => lblt_eq w a | None => false end) with false
    by (destruct after; auto; unfold lblt_eq; rewrite Ha; auto).
  replace (existsb (lbeq w) skip) with false.
  - replace (match before with Some b => lblt_eq b w | None => false end) with false
      by (destruct before; auto; unfold lblt_eq; rewrite Hb; auto). auto.
  - symmetry. apply not_true_iff_false. intros H. apply existsb_exists in H. destruct H as (x & Hx & E).
    apply lbeq_iff in E. subst x. auto.
Qed.

Lemma Forall2_alpha w lists (choices : list nat) : Forall2 (fun c cs => In c cs) w lists -> Forall (fun cs => incl cs choices) lists ->
  Forall (fun c => In c choices) w.
Proof. induction 1; intros F; inversion F; subst; constructor; auto. Qed.

Lemma firstn_Forall {A} (P : A -> Prop) n l : Forall P l -> Forall P (firstn n l).
Proof. revert n. induction l; intros [|n] H; cbn; auto. inversion H; subst. constructor; auto. Qed.

Lemma Forall2_len {A B} (R : A -> B -> Prop) l l' : Forall2 R l l' -> length l = length l'.
Proof. induction 1; cbn; auto. Qed.

(** The alphabet in use and the starting label. *)
Definition choices_of (before after : option label) : list nat :=
  match falsy before, falsy after with None, None => upper26 | _, _ => digits10 ++ upper26 end.
Definition start_of (before after : option label) : label := or_else (falsy after) [hd 0 (choices_of before after)].

Definition tight (before after : option label) : Prop :=
  exists b, falsy before = Some b /\ (lblt (start_of before after) b = false \/ b = start_of before after ++ [0]).

Lemma choices_incl before after : incl (choices_of before after) (digits10 ++ upper26).
Proof.
  unfold choices_of. destruct (falsy before), (falsy after); try apply incl_refl. apply incl_appr, incl_refl.
Qed.

Lemma choices_cons before after : exists c r, choices_of before after = c :: r.
Proof. unfold choices_of. destruct (falsy before), (falsy after); cbn; eauto. Qed.

Lemma start_alpha before after : (forall a, after = Some a -> alpha a) ->
  Forall (fun c => In c (choices_of before after)) (start_of before after).
Proof.
  intros H. unfold start_of. destruct (falsy after) as [a|] eqn:E.
  - cbn. assert (Ea : choices_of before after = digits10 ++ upper26) by (unfold choices_of; rewrite E; destruct (falsy before); auto).
    rewrite Ea. assert (Ha : alpha a) by (apply H; destruct after as [[|]|]; cbn in E; congruence).
    eapply Forall_impl; [|exact Ha]. intros c. apply full_alpha.
  - cbn. constructor; auto. destruct (choices_cons before after) as (c & r & ->). cbn. auto.
Qed.

Lemma tight_test before after :
  match falsy before with
  | Some b => lblt_eq b (start_of before after) || lbeq b (start_of before after ++ [0])
  | None => false
  end = true <-> tight before after.
Proof.
  unfold tight. destruct (falsy before) as [b|]; split; try discriminate.
  - rewrite orb_true_iff. unfold lblt_eq. rewrite negb_true_iff, lbeq_iff. intros H. exists b. auto.
  - intros (b' & E & H). injection E as <-. rewrite orb_true_iff. unfold lblt_eq. rewrite negb_true_iff, lbeq_iff. auto.
  - intros (b' & E & _). discriminate.
Qed.

Lemma generate_unfold skip before after : generate_label skip before after =
  if match falsy before with
     | Some b => lblt_eq b (start_of before after) || lbeq b (start_of before after ++ [0])
     | None => false end
  then Err InvalidLabelConstraints
  else match char_lists (choices_of before after) (start_of before after) with
       | None => Err ValueError
       | Some lists =>
        let start_from := common (or_else (falsy before) []) (or_else (falsy after) []) in
        match loop_len (try_label skip (falsy before) (falsy after)) lists start_from (length lists - start_from) with
        | Some l => Ok l
        | None => Err ValueError
        end
       end.
Proof. reflexivity. Qed.

Lemma common_le a : forall b, common a b <= length b.
Proof. induction a as [|x a IH]; intros [|y b]; cbn; try lia. destruct (x =? y); [|lia]. specialize (IH b). lia. Qed.

Lemma start_from_le before after :
  common (or_else (falsy before) []) (or_else (falsy after) []) <= length (start_of before after).
Proof.
  unfold start_of. destruct (falsy after) as [a|]; cbn; [apply common_le|].
  destruct (or_else (falsy before) []); cbn; lia.
Qed.

(** What is returned. *)
Theorem generate_sound skip before after l : (forall a, after = Some a -> alpha a) ->
  generate_label skip before after = Ok l ->
  l <> [] /\ Forall (fun c => In c (choices_of before after)) l /\ length l <= S (length (start_of before after)) /\ ~ In l skip /\
  (forall a, falsy after = Some a -> lblt a l = true) /\ (forall b, falsy before = Some b -> lblt l b = true).
Proof.
  intros Ha. rewrite generate_unfold.
  match goal with |- context [if ?c then _ else _] => destruct c end; [discriminate|].
  destruct (char_lists_in (choices_of before after) (start_of before after)) as (lists & -> & L & I & _).
  { apply start_alpha; auto. }
  { destruct (choices_cons before after) as (c & r & ->). discriminate. }
  cbn zeta. destruct (loop_len _ _ _ _) as [l'|] eqn:E; [|discriminate]. intros H. injection H as ->.
  apply loop_len_found in E. destruct E as (j & w & Hj & Hw & E). apply try_found in E. destruct E as (-> & H1 & H2 & H3).
  assert (Lw := Forall2_len _ _ _ Hw). rewrite firstn_length in Lw. assert (SF := start_from_le before after).
  split; [intros ->; cbn [length] in Lw; lia|]. split; [eapply Forall2_alpha; eauto; apply firstn_Forall; auto|]. split; [lia|auto].
Qed.

(** InvalidLabelConstraints exactly if there is no room by the rule. *)
Theorem generate_constraints skip before after :
  generate_label skip before after = Err InvalidLabelConstraints <-> tight before after.
Proof.
  rewrite generate_unfold. rewrite <- tight_test. split.
  - match goal with |- context [if ?c then _ else _] => destruct c end; auto.
    destruct (char_lists _ _); [|discriminate]. cbn zeta. destruct (loop_len _ _ _ _); discriminate.
  - intros ->. auto.
Qed.

Lemma generate_err skip before after e : generate_label skip before after = Err e -> e = InvalidLabelConstraints \/ e = ValueError.
Proof.
  rewrite generate_unfold. match goal with |- context [if ?c then _ else _] => destruct c end; [intros H; injection H; auto|].
  destruct (char_lists _ _); [|intros H; injection H; auto]. cbn zeta. destruct (loop_len _ _ _ _); [discriminate|]. intros H; injection H; auto.
Qed.

(** With a bound and room by the rule a label is found if start0 is unused. *)
Lemma generate_start0 skip before after : (forall a, after = Some a -> alpha a) ->
  falsy before <> None \/ falsy after <> None -> ~ tight before after ->
  ~ In (start_of before after ++ [0]) skip ->
  exists l, generate_label skip before after = Ok l.
Proof.
  intros Ha Hb Nt Hs. rewrite generate_unfold.
  destruct (match falsy before with Some b => _ | None => false end) eqn:T; [exfalso; apply Nt, tight_test; auto|].
  assert (Ec : choices_of before after = digits10 ++ upper26).
  { unfold choices_of. destruct (falsy before), (falsy after); auto. tauto. }
  destruct (char_lists_in (choices_of before after) (start_of before after)) as (lists & -> & L & _ & F).
  { apply start_alpha; auto. }
  { rewrite Ec. discriminate. }
  cbn zeta. rewrite Ec in F. cbn [hd digits10 seq app] in F.
  set (st := start_of before after) in *. set (i := common _ _).
  assert (Hi : i <= length st) by apply start_from_le.
  destruct (loop_len_some (try_label skip (falsy before) (falsy after)) lists (length lists - i) i (length st) (st ++ [0])) as (l' & ->); [lia| |eauto].
  rewrite <- L, firstn_all. apply (loop_first _ _ (st ++ [0])); auto. cbn [app].
  apply try_ok; auto.
  - intros a Ea. unfold st, start_of. rewrite Ea. cbn. apply lblt_ext. discriminate.
  - intros b Eb. rewrite Eb in T. apply orb_false_iff in T. destruct T as [T1 T2]. unfold lblt_eq in T1. apply negb_false_iff in T1.
    apply lblt_succ; auto. intros ->. rewrite (proj2 (lbeq_iff _ _)) in T2; [discriminate|auto].
Qed.

(** With a bound, room by the rule and no used label strictly within the bounds a label is found. *)
Theorem generate_complete skip before after : (forall a, after = Some a -> alpha a) ->
  falsy before <> None \/ falsy after <> None -> ~ tight before after ->
  (forall s, In s skip -> (forall a, falsy after = Some a -> lblt a s = true) ->
             (forall b, falsy before = Some b -> lblt s b = true) -> False) ->
  exists l, generate_label skip before after = Ok l.
Proof.
  intros Ha Hb Nt Hs. apply generate_start0; auto. intros Hin. apply (Hs _ Hin).
  - intros a Ea. unfold start_of. rewrite Ea. cbn. apply lblt_ext. discriminate.
  - intros b Eb. destruct (lblt (start_of before after ++ [0]) b) eqn:E; auto. exfalso. apply Nt. exists b. split; auto.
    destruct (lblt (start_of before after) b) eqn:E2; auto. right.
    destruct (list_eq_dec Nat.eq_dec b (start_of before after ++ [0])) as [|N]; auto.
    rewrite (lblt_succ _ _ E2 N) in E. discriminate.
Qed.

(** *** Without bounds: the first free label of one or two capital letters *)
Definition letters (l : label) : Prop := (length l = 1 \/ length l = 2) /\ Forall (fun c => 10 <= c < 36) l.

Lemma upper_in c : In c upper26 <-> 10 <= c < 36.
Proof. unfold upper26. rewrite in_seq. lia. Qed.

Lemma free_sound skip l : generate_label skip None None = Ok l -> letters l /\ ~ In l skip.
Proof.
  intros H. apply generate_sound in H; [|discriminate]. destruct H as (H1 & H2 & H3 & H4 & _). split; auto. split.
  - cbn in H3. destruct l as [|? [|? [|]]]; cbn in *; try lia. congruence.
  - eapply Forall_impl; [|exact H2]. intros c. apply upper_in.
Qed.

(** A loop without bounds never breaks; it ends without result only if all is used. *)
Lemma loop_chars_none body cs : (forall c, In c cs -> body c <> Break) -> loop_chars body cs = Next \/ exists l, loop_chars body cs = Found l.
Proof.
  induction cs as [|c cs IH]; cbn; auto. intros H. destruct (body c) eqn:E; eauto. exfalso. apply (H c); auto.
Qed.

Lemma loop_chars_next body cs : loop_chars body cs = Next -> forall c, In c cs -> body c = Next.
Proof.
  induction cs as [|c cs IH]; cbn; [intros _ ? []|]. destruct (body c) eqn:E; try discriminate.
  intros H d [<-|Hd]; auto.
Qed.

Lemma loop_free skip lists : forall acc,
  (loop_product (try_label skip None None) lists acc = Next /\
   forall w, Forall2 (fun c cs => In c cs) w lists -> In (acc ++ w) skip) \/
  exists l, loop_product (try_label skip None None) lists acc = Found l.
Proof.
  induction lists as [|cs ls IH]; intros acc; cbn.
  - unfold try_label. destruct (existsb (lbeq acc) skip) eqn:E; eauto. left. split; auto. intros w Hw. inversion Hw; subst.
    rewrite app_nil_r. apply existsb_exists in E. destruct E as (x & Hx & E). apply lbeq_iff in E. subst. auto.
  - destruct (loop_chars_none (fun c => loop_product (try_label skip None None) ls (acc ++ [c])) cs) as [H|H]; auto.
    + intros c _. destruct (IH (acc ++ [c])) as [[-> _]|(l & ->)]; discriminate.
    + left. split; auto. intros w Hw. inversion Hw as [|c ? w' ? Hc Hw']; subst.
      assert (E := loop_chars_next _ _ H c Hc). cbn in E. destruct (IH (acc ++ [c])) as [[_ H2]|(l & H2)]; [|congruence].
      specialize (H2 w' Hw'). rewrite <- app_assoc in H2. auto.
Qed.

Lemma free_unfold skip : generate_label skip None None =
  match loop_product (try_label skip None None) [upper26] [] with
  | Found l => Ok l
  | _ => match loop_product (try_label skip None None) [upper26; upper26] [] with Found l => Ok l | _ => Err ValueError end
  end.
Proof.
  rewrite generate_unfold. cbn [falsy].
  change (char_lists (choices_of None None) (start_of None None)) with (Some [upper26; upper26]). cbn zeta.
  change (common (or_else None []) (or_else None [])) with 0. cbn [length Nat.sub loop_len].
  change (firstn 1 [upper26; upper26]) with [upper26]. change (firstn 2 [upper26; upper26]) with [upper26; upper26].
  set (p2 := loop_product (try_label skip None None) [upper26; upper26] []). destruct (loop_product (try_label skip None None) [upper26] []), p2; auto.
Qed.

Lemma free_complete skip : (exists l, generate_label skip None None = Ok l) \/
  (generate_label skip None None = Err ValueError /\ forall l, letters l -> In l skip).
Proof.
  rewrite free_unfold.
  destruct (loop_free skip [upper26] []) as [[-> H1]|(l & ->)]; [|eauto].
  destruct (loop_free skip [upper26; upper26] []) as [[-> H2]|(l & ->)]; [|eauto].
  right. split; auto. intros l ([E|E] & F).
  - apply (H1 l). destruct l as [|c [|]]; try discriminate. inversion F; subst. constructor; [apply upper_in; auto|constructor].
  - apply (H2 l). destruct l as [|c [|d [|]]]; try discriminate. inversion F as [|? ? F1 F2]; subst. inversion F2; subst.
    constructor; [apply upper_in; auto|]. constructor; [apply upper_in; auto|constructor].
Qed.

(** The first free capital letter is taken. *)
Lemma loop_chars_first (body : nat -> tried) c : forall cs1 cs2, (forall d, In d cs1 -> body d = Next) ->
  forall l, body c = Found l -> loop_chars body (cs1 ++ c :: cs2) = Found l.
Proof.
  induction cs1 as [|d cs1 IH]; intros cs2 H l Hc; cbn; [rewrite Hc; auto|]. rewrite (H d) by (cbn; auto). apply IH; auto.
  intros e He. apply H. cbn; auto.
Qed.

Lemma free_letter skip c : 10 <= c < 36 -> ~ In [c] skip -> (forall d, 10 <= d < c -> In [d] skip) ->
  generate_label skip None None = Ok [c].
Proof.
  intros Hc Hn Hd. rewrite free_unfold.
  assert (E : upper26 = seq 10 (c - 10) ++ c :: seq (S c) (35 - c)).
  { unfold upper26. replace 26 with ((c - 10) + S (35 - c)) by lia. rewrite seq_app. cbn [seq]. repeat f_equal; lia. }
  cbn [loop_product app]. rewrite E.
  rewrite (loop_chars_first _ c (seq 10 (c - 10)) (seq (S c) (35 - c))) with (l := [c]); auto.
  - intros d Hd'. apply in_seq in Hd'. unfold try_label. rewrite (proj2 (existsb_exists _ _)); auto.
    exists [d]. split; [apply Hd; lia|apply lbeq_iff; auto].
  - apply try_ok; auto; discriminate.
Qed.
