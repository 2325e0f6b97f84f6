(** Counting children while branches move: numchild up to known offsets. *)
From Coq Require Import List Arith ZArith Lia Bool Permutation.
From Verif Require Import Prelude Forest SpecFacts PathTab PathMove CommonModel MPModel MPStep MPInv.
Import ListNotations.

(** numchild plus the offset of the path is the number of children. *)
Fixpoint nco (d : path -> Z) (p : path) (f : kf) : Prop :=
  match f with
  | Nil => True
  | Cons sa k r => (Z.of_nat (snd (snd sa)) + d (p ++ fst sa) = Z.of_nat (length (roots k)))%Z /\
                   nco d (p ++ fst sa) k /\ nco d p r
  end.

Definition addat (d : path -> Z) (q : path) (x : Z) : path -> Z :=
  fun p => if peq p q then (d p + x)%Z else d p.

Lemma addat_same d q x : addat d q x q = (d q + x)%Z.
Proof. unfold addat. rewrite peq_refl. auto. Qed.
Lemma addat_other d q x p : p <> q -> addat d q x p = d p.
Proof. intros H. unfold addat. rewrite (proj2 (peq_false _ _) H). auto. Qed.

Lemma nco_ext d d' f : forall p, (forall x, In x (rows f) -> d (p ++ fst x) = d' (p ++ fst x)) ->
  nco d p f -> nco d' p f.
Proof.
  induction f as [|sa k IHk r IHr]; simpl; auto. intros p H (H1 & H2 & H3). repeat split.
  - rewrite <- H; auto.
  - apply IHk; auto. intros x Hx. rewrite <- app_assoc. apply (H (fst sa ++ fst x, snd x)).
    right. apply in_app_iff. left. apply in_map_iff. exists x. auto.
  - apply IHr; auto. intros x Hx. apply H. right. apply in_app_iff. auto.
Qed.

Lemma nco_zero f : forall p, nco (fun _ => 0%Z) p f <-> nc_ok f.
Proof.
  induction f as [|sa k IHk r IHr]; simpl; [tauto|]. intros p. rewrite IHk, IHr.
  split; intros (H1 & H2 & H3); repeat split; auto; lia.
Qed.

Lemma nco_fapp d p f g : nco d p (fapp f g) <-> nco d p f /\ nco d p g.
Proof. induction f as [|sa k IHk r IHr]; simpl; tauto. Qed.

Lemma app_neq_self (p q : path) : q <> [] -> p ++ q <> p.
Proof. intros H E. rewrite <- (app_nil_r p) in E at 2. apply app_inv_head in E. auto. Qed.

Section Count.
Variable cfg : mp_cfg.
Hypothesis step1 : 1 <= steplen cfg.
Notation w := (steplen cfg).
Notation kpwf := (kpwf cfg).

Lemma k_nonempty f x : kpwf f -> In x (rows f) -> fst x <> [].
Proof.
  intros W H. destruct (k_len cfg step1 _ _ W H) as [n E]. intros E0. rewrite E0 in E. simpl in E. lia.
Qed.

Lemma nco_At_l d q pa (l l' f f' : kf) : At q pa l l' f f' -> forall p, nco d p f -> nco d (p ++ q) l.
Proof.
  induction 1; intros p; simpl; intros N.
  - rewrite app_nil_r. auto.
  - tauto.
  - rewrite app_assoc. apply IHAt. tauto.
  - apply IHAt. tauto.
Qed.

Lemma At_in_new q a a' (l l' f f' : kf) : At q (Some (a, a')) l l' f f' -> In (q, a') (rows f').
Proof.
  intros H. destruct (@At_rows _ Nat.ltb w _ irr ltb_tot' step1 _ _ _ _ _ _ H) as (R & _ & H2 & _).
  eapply Permutation_in; [symmetry; apply H2|]. simpl; auto.
Qed.

Lemma nco_At d q pa (l l' f f' : kf) : At q pa l l' f f' -> pold pa = pnew pa -> kpwf f' ->
  forall p, nco d p f -> nco d (p ++ q) l' ->
  nco (addat d (p ++ q) (Z.of_nat (length (roots l')) - Z.of_nat (length (roots l)))) p f'.
Proof.
  induction 1; intros E W p N N'.
  - rewrite app_nil_r in *. eapply nco_ext; [|apply N']. intros x Hx.
    rewrite addat_other; auto. apply app_neq_self. apply (k_nonempty _ _ W Hx).
  - simpl in E. injection E as ->. simpl in N. destruct N as (N1 & N2 & N3).
    assert (ND := k_NoDup cfg step1 _ W). simpl in ND. inversion ND; subst.
    simpl in W. destruct W as (W1 & W2 & W3 & W4). simpl. repeat split.
    + rewrite addat_same. lia.
    + eapply nco_ext; [|apply N']. intros x Hx. rewrite addat_other; auto.
      apply app_neq_self. apply (k_nonempty _ _ W2 Hx).
    + eapply nco_ext; [|apply N3]. intros x Hx. rewrite addat_other; auto.
      intros Ex. apply app_inv_head in Ex. apply H1. rewrite <- Ex. rewrite map_app, in_app_iff. right.
      apply in_map. auto.
  - destruct aa as [a a']. 
    assert (ND := k_NoDup cfg step1 _ W). simpl in ND. inversion ND as [|? ? ND1 ND2]; subst.
    rewrite map_app in ND2. apply NoDup_app_iff in ND2. destruct ND2 as (_ & _ & ND2).
    simpl in N. destruct N as (N1 & N2 & N3).
    assert (Wk : kpwf k') by (simpl in W; apply W).
    assert (Hq := At_in_new _ _ _ _ _ _ _ H). assert (Nq := k_nonempty _ _ Wk Hq). simpl in Nq.
    simpl. rewrite !app_assoc in *. repeat split.
    + rewrite addat_other.
      * rewrite (At_roots_same _ _ _ _ _ _ H). auto.
      * intros Ex. symmetry in Ex. apply (app_neq_self _ _ Nq Ex).
    + apply IHAt; auto.
    + eapply nco_ext; [|apply N3]. intros x Hx. rewrite addat_other; auto.
      intros Ex. rewrite <- app_assoc in Ex. apply app_inv_head in Ex.
      apply (ND2 (fst x)).
      * apply in_map_iff. exists (fst sb ++ q, a'). split; auto. apply in_map_iff. exists (q, a'). auto.
      * apply in_map. auto.
  - destruct aa as [a a']. 
    assert (ND := k_NoDup cfg step1 _ W). simpl in ND. inversion ND as [|? ? ND1 ND2]; subst.
    rewrite map_app in ND2. apply NoDup_app_iff in ND2. destruct ND2 as (_ & _ & ND2).
    simpl in N. destruct N as (N1 & N2 & N3).
    assert (Wr : kpwf r') by (simpl in W; apply W).
    assert (Hq := At_in_new _ _ _ _ _ _ _ H).
    simpl. repeat split.
    + rewrite addat_other; auto. intros Ex. apply app_inv_head in Ex. apply ND1. rewrite Ex.
      rewrite map_app, in_app_iff. right. apply (in_map fst _ _ Hq).
    + eapply nco_ext; [|apply N2]. intros x Hx. rewrite addat_other; auto.
      intros Ex. rewrite <- app_assoc in Ex. apply app_inv_head in Ex.
      apply (ND2 q).
      * apply in_map_iff. exists (fst sb ++ fst x, snd x). split; auto. apply in_map_iff. exists x. auto.
      * apply (in_map fst _ _ Hq).
    + apply IHAt; auto.
Qed.

(** Updating the payload of the node at a path. *)
Fixpoint kupd (q : path) (g : payload -> payload) (p : path) (f : kf) : kf :=
  match f with
  | Nil => Nil
  | Cons sa k r => Cons (fst sa, if peq (p ++ fst sa) q then g (snd sa) else snd sa)
                        (kupd q g (p ++ fst sa) k) (kupd q g p r)
  end.

Lemma kupd_rows_gen q g f : forall p, rows (kupd q g p f) =
  map (fun x => (fst x, if peq (p ++ fst x) q then g (snd x) else snd x)) (rows f).
Proof.
  induction f as [|sa k IHk r IHr]; simpl; auto. intros p. f_equal. rewrite map_app, IHr, IHk. f_equal.
  rewrite !map_map. apply map_ext. intros x. unfold pre. simpl. rewrite app_assoc. auto.
Qed.

Lemma kupd_rows q g f : rows (kupd q g [] f) = map (updrow Nat.ltb q g) (rows f).
Proof.
  rewrite kupd_rows_gen. apply map_ext. intros [p a]. unfold updrow. simpl. unfold peq.
  destruct (leq Nat.ltb p q); auto.
Qed.

Lemma kupd_roots_fst q g f p : map fst (roots (kupd q g p f)) = map fst (roots f).
Proof. induction f as [|sa k IHk r IHr]; simpl; congruence. Qed.

Lemma kupd_roots_len q g f p : length (roots (kupd q g p f)) = length (roots f).
Proof. rewrite <- (map_length fst), kupd_roots_fst, map_length. auto. Qed.

Lemma kupd_pwf q g f : forall p, kpwf f -> kpwf (kupd q g p f).
Proof.
  induction f as [|sa k IHk r IHr]; [simpl; auto|]. intros p (W1 & W2 & W3 & W4).
  unfold MPInv.kpwf in *. simpl. split; [auto|split; [apply IHk; auto|split; [apply IHr; auto|]]].
  - apply Forall_map_fst with (P := fun s => llt Nat.ltb (fst sa) s = true) (l := roots r); auto.
    symmetry. apply kupd_roots_fst.
Qed.

Lemma kupd_valid q g f : forall p, kvalid cfg f -> kvalid cfg (kupd q g p f).
Proof.
  induction f as [|sa k IHk r IHr]; [simpl; auto|]. intros p. simpl. rewrite !kvalid_cons. intuition.
Qed.

Lemma kupd_erase q g f : (forall a, fst (g a) = fst a) -> forall p, kerase (kupd q g p f) = kerase f.
Proof.
  intros G. unfold kerase, erase. induction f as [|sa k IHk r IHr]; simpl; auto. intros p. f_equal; auto.
  destruct (peq _ _); auto.
Qed.

Lemma kupd_nco d q g x f : forall p,
  nco d p f -> (forall y, In y (rows f) -> p ++ fst y = q ->
     (Z.of_nat (snd (g (snd y))) = Z.of_nat (snd (snd y)) + x)%Z) ->
  nco (addat d q (- x)) p (kupd q g p f).
Proof.
  induction f as [|sa k IHk r IHr]; simpl; auto. intros p (N1 & N2 & N3) H. repeat split.
  - rewrite kupd_roots_len. destruct (peq (p ++ fst sa) q) eqn:E; simpl.
    + apply peq_iff in E. rewrite <- E, addat_same. rewrite (H sa); auto. lia.
    + apply peq_false in E. rewrite addat_other; auto.
  - apply IHk; auto. intros y Hy Ey. rewrite <- app_assoc in Ey.
    apply (H (fst sa ++ fst y, snd y)); auto. right. apply in_app_iff. left.
    apply in_map_iff. exists y. auto.
  - apply IHr; auto. intros y Hy Ey. apply H; auto. right. apply in_app_iff. auto.
Qed.

(** On tables. *)
Lemma upd_nc_lay t f q h : lay cfg t f ->
  lay cfg (map (upd_nc q h) t) (kupd q (fun a => (fst a, h (snd a))) [] f).
Proof.
  intros (W & V & P). split; [|split].
  - apply kupd_pwf; auto.
  - apply kupd_valid; auto.
  - rewrite P, map_map, kupd_rows, map_map. erewrite map_ext; [reflexivity|].
    intros x. unfold upd_nc, updrow. simpl. unfold peq. destruct (leq Nat.ltb (fst x) q); auto.
Qed.

End Count.
