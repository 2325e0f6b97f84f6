(** Finding a path for a new position (generate_path and _get_new_path). *)
From Coq Require Import List Arith Lia Bool Permutation Sorted.
From Verif Require Import Prelude Forest SpecFacts PathTab PathMove CommonModel LTModel LTLabel LTInv LTShift.
Import ListNotations.

(** ** Labels of a list of siblings *)
Lemma skip_labels q l : kpwf l -> map last_label (map l_path (sibrows q l)) = labels l.
Proof.
  intros W. unfold sibrows, labels. rewrite !map_map. apply map_ext_in. intros x Hx. cbn.
  destruct (seg_one _ _ W Hx) as (s & ->). apply last_snoc.
Qed.

Lemma label_root l s : kpwf l -> In s (labels l) -> exists n, In ([s], n) (roots l).
Proof.
  intros W H. apply in_map_iff in H. destruct H as ([p n] & E & H). destruct (seg_one _ _ W H) as (s' & E'). cbn in *. subst. eauto.
Qed.
Lemma root_label l s n : In ([s], n) (roots l) -> In s (labels l).
Proof. intros H. apply in_map_iff. exists ([s], n). auto. Qed.

(** [lab] goes between [n1] and [n2]. *)
Definition between (lab : label) (n1 n2 : kf) : Prop :=
  (forall s, In s (labels n1) -> lblt s lab = true) /\ (forall s, In s (labels n2) -> lblt lab s = true).

Lemma between_paths lab n1 n2 : kpwf n1 -> kpwf n2 -> between lab n1 n2 ->
  (forall x, In x (roots n1) -> llt lblt (fst x) [lab] = true) /\ (forall x, In x (roots n2) -> llt lblt [lab] (fst x) = true).
Proof.
  intros W1 W2 [H1 H2]. split.
  - intros [p n] Hx. destruct (seg_one _ _ W1 Hx) as (s & E). cbn in E. subst p. cbn [fst].
    change (plt [s] [lab] = true). rewrite plt_one. apply H1. eapply root_label; eauto.
  - intros [p n] Hx. destruct (seg_one _ _ W2 Hx) as (s & E). cbn in E. subst p. cbn [fst].
    change (plt [lab] [s] = true). rewrite plt_one. apply H2. eapply root_label; eauto.
Qed.

Lemma place_between l lab : kpwf l -> ~ In lab (labels l) -> exists n1 n2, l = fapp n1 n2 /\ between lab n1 n2.
Proof.
  intros W N. destruct (@split_at _ lblt 1 _ lblt_irr lblt_tr lblt_tot idn l [lab] W) as (n1 & n2 & -> & H1 & H2).
  { intros Hin. apply N. apply in_map_iff in Hin. destruct Hin as ([p n] & E & Hx). cbn in E. subst p. eapply root_label; eauto. }
  apply pwf_fapp in W. destruct W as (W1 & W2 & _).
  exists n1, n2. split; auto. split.
  - intros s Hs. destruct (label_root _ _ W1 Hs) as (n & Hn). rewrite <- plt_one. apply (H1 _ Hn).
  - intros s Hs. destruct (label_root _ _ W2 Hs) as (n & Hn). rewrite <- plt_one. apply (H2 _ Hn).
Qed.

Lemma between_unique lab a1 : forall a2 b1 b2, fapp a1 a2 = fapp b1 b2 -> between lab a1 a2 -> between lab b1 b2 ->
  a1 = b1 /\ a2 = b2.
Proof.
  induction a1 as [|x k _ r IH]; intros a2 [|y m s] b2 E Ha Hb; cbn in E; auto.
  - exfalso. subst a2. destruct Ha as [_ Ha]. destruct Hb as [Hb _]. specialize (Ha _ (or_introl eq_refl)). specialize (Hb _ (or_introl eq_refl)).
    rewrite (lblt_asym _ _ Ha) in Hb. discriminate.
  - exfalso. subst b2. destruct Ha as [Ha _]. destruct Hb as [_ Hb]. specialize (Ha _ (or_introl eq_refl)). specialize (Hb _ (or_introl eq_refl)).
    rewrite (lblt_asym _ _ Ha) in Hb. discriminate.
  - injection E as -> -> E. destruct (IH a2 s b2 E) as [-> ->]; auto.
    + destruct Ha as [H1 H2]. split; auto. intros z Hz. apply H1. right. auto.
    + destruct Hb as [H1 H2]. split; auto. intros z Hz. apply H1. right. auto.
Qed.

(** The greatest label of [m1] and the least label of [m2]. *)
Definition top (m1 : kf) (a : option label) : Prop :=
  match a with None => m1 = Nil | Some sa => In sa (labels m1) /\ forall s, In s (labels m1) -> lblt sa s = false end.
Definition bot (m2 : kf) (b : option label) : Prop :=
  match b with None => m2 = Nil | Some sb => In sb (labels m2) /\ forall s, In s (labels m2) -> lblt s sb = false end.

Lemma pwf_app l1 l2 : kpwf (fapp l1 l2) <-> kpwf l1 /\ kpwf l2 /\ (forall s t, In s (labels l1) -> In t (labels l2) -> lblt s t = true).
Proof.
  unfold kpwf. rewrite pwf_fapp. split; intros (W1 & W2 & W3); repeat split; auto.
  - intros s t Hs Ht. destruct (label_root _ _ W1 Hs) as (n & Hn). destruct (label_root _ _ W2 Ht) as (m & Hm).
    rewrite <- plt_one. apply (W3 _ _ Hn Hm).
  - intros [p n] [p' n'] Hx Hy. destruct (seg_one _ _ W1 Hx) as (s & E). destruct (seg_one _ _ W2 Hy) as (s' & E'). cbn in *. subst.
    change (plt [s] [s'] = true). rewrite plt_one. apply W3; eapply root_label; eauto.
Qed.

Lemma top_last q m1 : kpwf m1 -> top m1 (label_of (last_opt (sibrows q m1))).
Proof.
  intros W. destruct (last_opt (sibrows q m1)) as [r|] eqn:E; cbn.
  - apply last_opt_Some in E. destruct E as [L E]. unfold sibrows in E.
    apply map_app_split in E. destruct E as (R1 & R2 & E & E1 & E2).
    destruct R2 as [|x [|]]; try discriminate. injection E2 as <-.
    destruct (roots_snoc _ _ _ E) as (l1 & k & -> & E3). subst R1.
    apply pwf_app in W. destruct W as (W1 & W2 & W3). destruct (seg_one _ x W2 (or_introl eq_refl)) as (s & Es).
    unfold mkrow, pre. cbn [l_path fst]. rewrite Es, last_snoc. rewrite labels_fapp.
    assert (El : labels (Cons x k Nil) = [s]) by (cbn; rewrite Es; auto). rewrite El. split.
    + apply in_app_iff. cbn; auto.
    + intros t Ht. apply in_app_iff in Ht. destruct Ht as [Ht|[<-|[]]]; [|apply lblt_irr].
      apply lblt_asym. apply W3; auto. rewrite El. cbn; auto.
  - apply last_opt_None in E. unfold sibrows in E. destruct m1; [auto|discriminate].
Qed.

Lemma bot_first q m2 : kpwf m2 -> bot m2 (label_of (hd_error (sibrows q m2))).
Proof.
  intros W. destruct m2 as [|x k r]; [reflexivity|]. destruct (seg_one _ x W (or_introl eq_refl)) as (s & Es).
  assert (W' : kpwf (fapp (Cons x k Nil) r)) by exact W. apply pwf_app in W'. destruct W' as (_ & W2 & W3).
  assert (El : labels (Cons x k r) = s :: labels r) by (cbn; rewrite Es; auto).
  cbn [sibrows roots map hd_error label_of option_map mkrow pre l_path fst bot]. rewrite Es, last_snoc, El. split; [cbn; auto|].
  intros t [<-|Ht]; [apply lblt_irr|].
  apply lblt_asym. apply W3; auto. cbn. rewrite Es. cbn; auto.
Qed.

Section New.
Variable cfg : lt_cfg.
Hypothesis max2 : 2 <= label_max cfg.
Notation lay := (lay cfg).
Notation kvalid := (kvalid cfg).

(** Some stored label has (at least) the greatest length. *)
Definition long_label (t : lt_table) : Prop :=
  exists r s, In r t /\ In s (l_path r) /\ label_max cfg <= length s.

Lemma falsy_valid o : (forall s, o = Some s -> s <> []) -> falsy o = o.
Proof. destruct o as [[|]|]; auto. intros H. exfalso. apply (H []); auto. Qed.

(** A label generated within the bounds. *)
Lemma gen_between skip m1 m2 a b lab : top m1 a -> bot m2 b -> kpwf m1 -> kpwf m2 -> kvalid m1 -> kvalid m2 ->
  (a <> None \/ b <> None) -> generate_label skip b a = Ok lab ->
  between lab m1 m2 /\ lab <> [] /\ alpha lab /\ length lab <= S (length (or_else a [0])) /\ ~ In lab skip.
Proof.
  intros Ta Tb W1 W2 V1 V2 Ne G.
  assert (Fa : falsy a = a). { apply falsy_valid. intros s ->. destruct Ta as [Ta _]. apply (label_valid cfg _ _ W1 V1 Ta). }
  assert (Fb : falsy b = b). { apply falsy_valid. intros s ->. destruct Tb as [Tb _]. apply (label_valid cfg _ _ W2 V2 Tb). }
  apply generate_sound in G.
  2: { intros s ->. destruct Ta as [Ta _]. apply (label_valid cfg _ _ W1 V1 Ta). }
  rewrite Fa, Fb in G. destruct G as (G1 & G2 & G3 & G4 & G5 & G6).
  split; [|split; [auto|split; [|split; [|auto]]]].
  - split.
    + intros s Hs. destruct a as [sa|]; cbn in Ta; [|subst m1; destruct Hs]. destruct Ta as [_ Ta].
      eapply lblt_le_tr; [apply Ta; exact Hs|]. apply G5; auto.
    + intros s Hs. destruct b as [sb|]; cbn in Tb; [|subst m2; destruct Hs]. destruct Tb as [_ Tb].
      destruct (lblt lab s) eqn:E; auto. exfalso. assert (X := lblt_le_tr _ _ _ E (G6 sb eq_refl)).
      rewrite (Tb s Hs) in X. discriminate.
  - eapply Forall_impl; [|exact G2]. intros c Hc. apply full_alpha. apply choices_incl in Hc. auto.
  - unfold start_of in G3. rewrite Fa in G3. destruct a; cbn in *; auto.
Qed.

(** Outside of the tight case a label is found. *)
Lemma gen_room m1 m2 a b : top m1 a -> bot m2 b -> kpwf (fapp m1 m2) -> kvalid (fapp m1 m2) ->
  (a <> None \/ b <> None) -> ~ tight b a -> exists lab, generate_label (labels (fapp m1 m2)) b a = Ok lab.
Proof.
  intros Ta Tb W V Ne Nt. assert (W' := W). apply pwf_app in W'. destruct W' as (W1 & W2 & W3).
  apply kvalid_fapp in V. destruct V as [V1 V2].
  assert (Fa : falsy a = a). { apply falsy_valid. intros s ->. destruct Ta as [Ta _]. apply (label_valid cfg _ _ W1 V1 Ta). }
  assert (Fb : falsy b = b). { apply falsy_valid. intros s ->. destruct Tb as [Tb _]. apply (label_valid cfg _ _ W2 V2 Tb). }
  apply generate_complete; auto.
  - intros s ->. destruct Ta as [Ta _]. apply (label_valid cfg _ _ W1 V1 Ta).
  - rewrite Fa, Fb. tauto.
  - rewrite Fa, Fb. intros s Hs H1 H2. rewrite labels_fapp in Hs. apply in_app_iff in Hs. destruct Hs as [Hs|Hs].
    + destruct a as [sa|]; cbn in Ta; [|subst m1; destruct Hs]. destruct Ta as [_ Ta]. specialize (H1 sa eq_refl). rewrite (Ta s Hs) in H1. discriminate.
    + destruct b as [sb|]; cbn in Tb; [|subst m2; destruct Hs]. destruct Tb as [_ Tb]. specialize (H2 sb eq_refl). rewrite (Tb s Hs) in H2. discriminate.
Qed.

(** What a found place means. *)
Record found (t : lt_table) (f : kf) (q : lpath) pa (l : kf) (N1 N2 : list node) (calm : Prop)
  (t1 : lt_table) (lab : label) (f1 n1 n2 : kf) : Prop := {
  fd_at : At q pa l (fapp n1 n2) f f1;
  fd_lay : lay t1 f1;
  fd_perm : tperm (kerase l) (kerase (fapp n1 n2));
  fd_between : between lab n1 n2;
  fd_label : lab <> [] /\ alpha lab;
  fd_len : length lab <= label_max cfg \/ long_label t;
  fd_calm : calm -> kerase (fapp n1 n2) = kerase l /\ nodes n1 = N1 /\ nodes n2 = N2;
}.

Lemma lab_len t f q pa m1 m2 a (lab : label) : lay t f -> At q pa (fapp m1 m2) (fapp m1 m2) f f -> top m1 a ->
  length lab <= S (length (or_else a [0])) -> length lab <= label_max cfg \/ long_label t.
Proof.
  intros L H Ta Hl. destruct (le_lt_dec (length lab) (label_max cfg)) as [|Hlt]; auto. right.
  destruct a as [sa|]; cbn in *; [|lia]. destruct Ta as [Ta _].
  assert (Wl := k_At_pwf_l _ _ _ _ _ _ H (proj1 L)). assert (W1 := proj1 (proj1 (pwf_app _ _) Wl)).
  destruct (label_root _ _ W1 Ta) as (n & Hn).
  exists (mkrow (q ++ [sa], n)), sa. split; [|split; [|lia]].
  - eapply lay_in_rev; eauto. eapply k_root_in; eauto. rewrite roots_fapp, in_app_iff. auto.
  - cbn. rewrite in_app_iff. cbn; auto.
Qed.

(** No room by the rule: the labels from the next sibling on get a letter. *)
Lemma gnp_unfold n db prefix b a moved : get_new_path cfg (S n) db prefix b a moved =
  if match falsy (label_of b), falsy (label_of a) with Some b, Some a => lblt b a | _, _ => false end then Err ValueError
  else
    match generate_path prefix (label_of b) (label_of a)
            (map l_path (order_path (filter (fun r => ppre prefix (l_path r) && (length (l_path r) =? length prefix + 1)) (lt_rows db)))) with
    | Ok p => Ok (db, p, moved)
    | Err InvalidLabelConstraints =>
        do start <- opt_res b AttributeError;
        do db' <- move_subtree_right cfg db start;
        do start' <- get_by_pk (lt_rows db') (l_pk start);
        get_new_path cfg n db' prefix (Some start') a true
    | Err e => Err e
    end.
Proof. reflexivity. Qed.

Lemma order_test m1 m2 a b : top m1 a -> bot m2 b -> kpwf (fapp m1 m2) ->
  match falsy b, falsy a with Some b, Some a => lblt b a | _, _ => false end = false.
Proof.
  intros Ta Tb W. apply pwf_app in W. destruct W as (_ & _ & W).
  destruct b as [[|c b]|]; cbn; auto. destruct a as [[|d a]|]; cbn; auto. cbn [top bot] in *. apply lblt_asym. apply W; tauto.
Qed.

Lemma sib_in q pa (l l' f f' : kf) t r : lay t f -> At q pa l l' f f' -> In r (sibrows q l) -> In r t.
Proof.
  intros L H Hr. apply in_map_iff in Hr. destruct Hr as ([s n] & <- & Hr). eapply lay_in_rev; eauto. eapply k_root_in; eauto.
Qed.

Theorem new_path db f q pa m1 m2 b a :
  lay (lt_rows db) f -> wf_ids (kerase f) -> At q pa (fapp m1 m2) (fapp m1 m2) f f -> pold pa = pnew pa ->
  b = hd_error (sibrows q m2) -> a = last_opt (sibrows q m1) -> fapp m1 m2 <> Nil ->
  (exists db1 lab mv f1 n1 n2, get_new_path cfg 2 db q b a false = Ok (db1, q ++ [lab], mv) /\
     found (lt_rows db) f q pa (fapp m1 m2) (nodes m1) (nodes m2)
       (no_digit_ext (labels (fapp m1 m2)) \/ ~ tight (label_of b) (label_of a)) (lt_rows db1) lab f1 n1 n2 /\
     map l_pk (lt_rows db1) = map l_pk (lt_rows db) /\ (mv = false -> db1 = db /\ f1 = f)) \/
  (get_new_path cfg 2 db q b a false = Err DataError /\ long_label (lt_rows db)).
Proof.
  intros L WF H Ep Eb Ea Nn. set (l := fapp m1 m2) in *.
  assert (W : kpwf f) by apply L. assert (V : kvalid f) by apply L.
  assert (Wl := k_At_pwf_l _ _ _ _ _ _ H W). assert (Vl := kvalid_At_l cfg _ _ _ _ _ _ H V).
  assert (Wl' := Wl). unfold l in Wl'. apply pwf_app in Wl'. destruct Wl' as (W1 & W2 & W3).
  assert (Vl' := Vl). unfold l in Vl'. apply kvalid_fapp in Vl'. destruct Vl' as [V1 V2].
  assert (Tb := bot_first q _ W2). rewrite <- Eb in Tb. assert (Ta := top_last q _ W1). rewrite <- Ea in Ta.
  assert (Ne : label_of a <> None \/ label_of b <> None).
  { destruct m1 as [|x k r].
    - right. destruct m2 as [|x k r]; [unfold l in Nn; cbn in Nn; congruence|]. rewrite Eb. cbn. discriminate.
    - left. intros E. rewrite E in Ta. discriminate. }
  rewrite (gnp_unfold 1). rewrite (order_test _ _ _ _ Ta Tb Wl).
  rewrite (kids_lay cfg _ _ _ _ _ _ _ L H). unfold generate_path. rewrite skip_labels by auto.
  destruct (generate_label (labels l) (label_of b) (label_of a)) as [lab|e] eqn:G; cbn [bind].
  { (* room *)
    left. exists db, lab, false, f, m1, m2. split; auto.
    destruct (gen_between _ _ _ _ _ _ Ta Tb W1 W2 V1 V2 Ne G) as (B & G1 & G2 & G3 & _).
    split; [|auto]. constructor; auto using tp_refl. eapply lab_len; eauto. }
  assert (Ti : tight (label_of b) (label_of a)).
  { destruct (generate_err _ _ _ _ G) as [-> | ->]; [apply (generate_constraints (labels l)); auto|].
    destruct (gen_room _ _ _ _ Ta Tb Wl Vl Ne) as (lab & E); [|fold l in E; congruence].
    intros T. apply (generate_constraints (labels l)) in T. congruence. }
  assert (e = InvalidLabelConstraints).
  { apply (generate_constraints (labels l)) in Ti. congruence. }
  subst e. destruct b as [start|].
  2: { exfalso. destruct Ti as (x & E & _). discriminate. }
  cbn [opt_res bind].
  destruct m2 as [|[p nb] cb rb]; [discriminate|]. cbn in Eb. injection Eb as ->.
  destruct (seg_one _ _ W2 (or_introl eq_refl)) as (sb & Esb). cbn in Esb. subst p.
  set (start := mkrow (pre q ([sb], nb))) in *.
  assert (Els : label_of (Some start) = Some sb) by (unfold start, label_of; cbn [option_map mkrow pre l_path fst]; rewrite last_snoc; auto).
  assert (Hstart : In start (lt_rows db)).
  { eapply sib_in; eauto. unfold l. rewrite sibrows_fapp, in_app_iff. right. cbn; auto. }
  rewrite Els in *.
  destruct (shift_cases cfg db q sb start eq_refl) as [[-> Fits]|[-> (r & Hr & Hs & Hf)]].
  2: { right. split; auto. destruct (lay_in cfg _ _ _ L Hr) as ([p n] & Hx & ->). unfold mkrow in Hs, Hf. cbn [fst snd l_path] in *.
       assert (Hpre : exists s x, p = q ++ s :: x).
       { unfold shifted in Hs. cbn [l_path] in Hs. apply andb_true_iff in Hs. destruct Hs as [Hs1 Hs2]. apply andb_true_iff in Hs1.
         destruct Hs1 as [Hs1 _]. apply ppre_iff in Hs1. destruct Hs1 as ([|s x] & ->); [|eauto].
         rewrite app_nil_r, Nat.ltb_irrefl in Hs2. discriminate. }
       destruct Hpre as (s & x & ->). rewrite append_A_app in Hf.
       assert (Vp := kvalid_path cfg _ _ V Hx). cbn [fst] in Vp. apply Forall_app in Vp. destruct Vp as [Vq Vx]. inversion Vx as [|? ? Vs Vx']; subst.
       exists (mkLT (nid n) (q ++ s :: x) (ndata n)), s. split; auto. split; [cbn; rewrite in_app_iff; cbn; auto|].
       unfold fits_ltree in Hf. rewrite forallb_app in Hf. cbn [forallb] in Hf.
       assert (FA : forall z, Forall (valid_label cfg) z -> forallb (fun l0 => length l0 <=? label_max cfg) z = true).
       { clear. intros z Hz. apply forallb_forall. intros y Hy. rewrite Forall_forall in Hz. apply Nat.leb_le. apply Hz; auto. }
       rewrite (FA _ Vq), (FA _ Vx') in Hf. rewrite andb_true_r in Hf. cbn [andb] in Hf. apply Nat.leb_gt in Hf.
       rewrite app_length in Hf. cbn in Hf. lia. }
  cbn [bind lt_rows]. destruct (shift_lay cfg _ _ _ _ _ _ L H Ep Fits) as (f1 & H1 & L1).
  set (t1 := map (shiftrow q sb) (lt_rows db)) in *. set (l1 := fsort (fshift sb l)) in *.
  assert (Wf1 : wf_ids (kerase f1)).
  { unfold wf_ids. rewrite <- (lay_pks cfg _ _ L1). unfold t1. rewrite shiftrow_pks, (lay_pks cfg _ _ L). auto. }
  assert (Hs1 : In (mkrow (pre q ([sb ++ [chA]], nb))) t1).
  { unfold t1. apply in_map_iff. exists start. split; auto. unfold start. rewrite shiftrow_at by discriminate.
    cbn [relab fst snd]. rewrite lblt_irr. auto. }
  change (l_pk start) with (l_pk (mkrow (pre q ([sb ++ [chA]], nb)))).
  rewrite (get_by_pk_lay cfg _ _ _ L1 Wf1 Hs1). cbn [bind].
  assert (H1' : At q pa l1 l1 f1 f1).
  { assert (X := At_id (At_sym H1)). replace (option_map _ (option_map _ pa)) with pa in X; auto.
    destruct pa as [[x y]|]; cbn in *; auto. congruence. }
  assert (Wl1 := k_At_pwf_l _ _ _ _ _ _ H1' (proj1 L1)). assert (Vl1 := kvalid_At_l cfg _ _ _ _ _ _ H1' (proj1 (proj2 L1))).
  rewrite (gnp_unfold 0). cbn [lt_rows].
  assert (Els' : label_of (Some (mkrow (pre q ([sb ++ [chA]], nb)))) = Some (sb ++ [chA])) by (unfold label_of; cbn [option_map mkrow pre l_path fst]; rewrite last_snoc; auto).
  rewrite Els'. set (la := label_of a) in *.
  assert (Vsb : valid_label cfg sb) by (apply (label_valid cfg _ sb W2 V2); cbn; auto).
  assert (Fb : falsy (Some (sb ++ [chA])) = Some (sb ++ [chA])) by (destruct sb; auto).
  assert (Fa : falsy la = la).
  { apply falsy_valid. intros s ->. destruct Ta as [Ta _]. apply (label_valid cfg _ _ W1 V1 Ta). }
  assert (Hasb : forall sa, la = Some sa -> lblt sa sb = true).
  { intros sa E. rewrite E in Ta. apply W3; [apply Ta|cbn; auto]. }
  replace (match falsy (Some (sb ++ [chA])) with Some _ => _ | None => false end) with false.
  2: { rewrite Fb, Fa. destruct la as [sa|]; auto. symmetry. apply lblt_asym. eapply lblt_tr; [apply Hasb; auto|apply snoc_lt]. }
  rewrite (kids_lay cfg _ _ _ _ _ _ _ L1 H1'). unfold generate_path. rewrite skip_labels by auto.
  assert (Plab : Permutation (labels l1) (labels (fshift sb l))).
  { apply Permutation_map. apply Permutation_sym, tp_roots, fsort_perm. }
  assert (Lsh : forall s, In s (labels l1) -> (In s (labels m1) /\ lblt s sb = true) \/ exists s0, In s0 (labels l) /\ s = s0 ++ [chA]).
  { intros s Hs. apply (Permutation_in _ Plab) in Hs. unfold labels in Hs. rewrite fshift_roots, map_map in Hs.
    apply in_map_iff in Hs. destruct Hs as ([p n] & E & Hx). cbn [fst] in E. destruct (seg_one _ _ Wl Hx) as (s0 & E0). cbn in E0. subst p.
    cbn in E. destruct (lblt s0 sb) eqn:Elt; [|right; exists s0; split; auto; eapply root_label; eauto].
    left. subst s. split; auto. apply root_label in Hx. unfold l in Hx. rewrite labels_fapp, in_app_iff in Hx. destruct Hx as [Hx|Hx]; auto.
    exfalso. destruct Tb as [_ Tb]. rewrite (Tb _ Hx) in Elt. discriminate. }
  set (st := start_of (Some (sb ++ [chA])) la).
  assert (Est : st = or_else la [0]).
  { unfold st, start_of, choices_of. rewrite Fb, Fa. destruct la; auto. }
  assert (Nt : ~ tight (Some (sb ++ [chA])) la).
  { intros (x & E & X). rewrite Fb in E. injection E as <-. fold st in X. rewrite Est in X. destruct X as [X|X].
    - destruct la as [sa|]; cbn in X.
      + rewrite (lblt_tr _ _ _ (Hasb sa eq_refl) (snoc_lt sb chA)) in X. discriminate.
      + destruct sb as [|[|c] s']; [destruct Vsb as [Vsb _]; congruence| |].
        * cbn in X. unfold lblt in X. cbn in X. destruct s'; discriminate.
        * unfold lblt in X. cbn in X. discriminate.
    - apply app_inj_tail in X. destruct X as [_ X]. discriminate. }
  destruct (generate_start0 (labels l1) (Some (sb ++ [chA])) la) as (lab & G2).
  { intros s Es. rewrite Es in Ta. destruct Ta as [Ta _]. apply (label_valid cfg _ _ W1 V1 Ta). }
  { left. rewrite Fb. discriminate. }
  { auto. }
  { fold st. rewrite Est. intros Hin. destruct (Lsh _ Hin) as [[Hm _]|(s0 & _ & E)].
    - destruct la as [sa|]; cbn in Ta; [|rewrite Ta in Hm; destruct Hm]. destruct Ta as [_ Ta]. cbn in Hm.
      specialize (Ta _ Hm). rewrite snoc_lt in Ta. discriminate.
    - apply app_inj_tail in E. destruct E as [_ E]. discriminate. }
  rewrite G2. cbn [bind]. left.
  assert (Snd := G2). apply generate_sound in Snd.
  2: { intros s Es. rewrite Es in Ta. destruct Ta as [Ta _]. apply (label_valid cfg _ _ W1 V1 Ta). }
  rewrite Fa, Fb in Snd. destruct Snd as (S1 & S2 & S3 & S4 & S5 & S6).
  destruct (place_between l1 lab Wl1 S4) as (n1 & n2 & El1 & B).
  exists (mkLTDB t1 (lt_sig db ++ [MovedRight (q ++ [sb])])), lab, true, f1, n1, n2. split; auto.
  split; [|split; [unfold t1; cbn [lt_rows]; apply shiftrow_pks|discriminate]]. cbn [lt_rows].
  assert (Ptree : tperm (kerase l) (kerase l1)).
  { rewrite <- (fshift_erase sb l). apply tp_fmap. apply fsort_perm. }
  constructor; auto.
  - rewrite <- El1. auto.
  - rewrite <- El1. auto.
  - split; auto. eapply Forall_impl; [|exact S2]. intros c Hc. apply full_alpha. apply choices_incl in Hc. auto.
  - apply (lab_len _ f q pa m1 (Cons ([sb], nb) cb rb) la lab L H Ta). fold st in S3. rewrite Est in S3. auto.
  - intros [C|C]; [|tauto]. assert (Wsh := fshift_wf sb l Wl C). assert (Esort : l1 = fshift sb l) by (apply fsort_id; auto).
    rewrite <- El1, Esort. rewrite fshift_erase. split; auto.
    assert (Esh : fshift sb l = fapp m1 (fshift sb (Cons ([sb], nb) cb rb))).
    { unfold l. rewrite fshift_fapp. f_equal. assert (Hm : forall s, In s (labels m1) -> lblt s sb = true) by (intros s Hs; apply W3; cbn; auto).
      clear - Hm W1. induction m1 as [|[p n] k _ r IH]; auto. destruct (seg_one _ _ W1 (or_introl eq_refl)) as (s & E). cbn in E. subst p.
      cbn [fshift fst snd relab]. rewrite (Hm s) by (cbn; auto). f_equal. apply IH.
      - apply W1.
      - intros x Hx. apply Hm. right. auto. }
    assert (B2 : between lab m1 (fshift sb (Cons ([sb], nb) cb rb))).
    { split.
      - intros s Hs. destruct la as [sa|]; cbn in Ta; [|rewrite Ta in Hs; destruct Hs]. destruct Ta as [_ Ta].
        eapply lblt_le_tr; [apply Ta; exact Hs|]. apply S5; auto.
      - intros s Hs. rewrite Esh in Wsh. apply pwf_app in Wsh. destruct Wsh as (_ & Wsh & _).
        assert (Tb' := bot_first q _ Wsh). cbn [fshift fst snd relab] in Tb'. rewrite lblt_irr in Tb'. cbn [sibrows roots map hd_error] in Tb'.
        cbn [label_of option_map mkrow pre l_path fst] in Tb'. rewrite last_snoc in Tb'. destruct Tb' as [_ Tb'].
        cbn [fshift fst snd relab] in Hs. rewrite lblt_irr in Hs. specialize (Tb' s Hs).
        destruct (lblt lab s) eqn:E; auto. exfalso. rewrite (lblt_le_tr _ _ _ E (S6 _ eq_refl)) in Tb'. discriminate. }
    destruct (between_unique lab n1 n2 m1 (fshift sb (Cons ([sb], nb) cb rb))) as [-> ->]; auto; [congruence|].
    split; auto. rewrite fshift_nodes. auto.
Qed.

(** ** Without neighbours *)
Definition appendable (L : list label) : Prop :=
  exists c, 10 <= c < 36 /\ (forall d, 10 <= d < c -> In [d] L) /\ forall x, In x L -> lblt x [c] = true.

(** All labels of one or two capital letters are in use. *)
Definition letters_used (L : list label) : Prop := forall l, letters l -> In l L.

Lemma free_path t f q pa l : lay t f -> At q pa l l f f ->
  (exists lab n1 n2, generate_path q None None (map l_path (sibrows q l)) = Ok (q ++ [lab]) /\ l = fapp n1 n2 /\
     found t f q pa l (nodes l) [] (appendable (labels l)) t lab f n1 n2) \/
  (generate_path q None None (map l_path (sibrows q l)) = Err ValueError /\ letters_used (labels l)).
Proof.
  intros L H. assert (Wl := k_At_pwf_l _ _ _ _ _ _ H (proj1 L)). unfold generate_path. rewrite skip_labels by auto.
  destruct (free_complete (labels l)) as [(lab & G)|[-> U]]; [|right; auto].
  left. rewrite G. cbn [bind]. destruct (free_sound _ _ G) as [Le Nin].
  destruct (place_between l lab Wl Nin) as (n1 & n2 & El & B). exists lab, n1, n2. split; auto. split; auto.
  destruct Le as [Le1 Le2]. constructor; auto; rewrite <- ?El; auto using tp_refl.
  - split.
    + intros ->. cbn in Le1. lia.
    + eapply Forall_impl; [|exact Le2]. cbn. intros. lia.
  - left. lia.
  - intros (c & Hc & Hd & Hx). split; auto.
    assert (Ec : generate_label (labels l) None None = Ok [c]).
    { apply free_letter; auto. intros Hin. specialize (Hx _ Hin). rewrite lblt_irr in Hx. discriminate. }
    assert (lab = [c]) by congruence. subst lab.
    destruct (between_unique [c] n1 n2 l Nil) as [-> ->]; auto.
    + rewrite fapp_nil_r. auto.
    + split; auto.
Qed.

Lemma free_new_path db f q pa l : lay (lt_rows db) f -> At q pa l l f f ->
  get_new_path cfg 2 db q None None false = do p <- generate_path q None None (map l_path (sibrows q l)); Ok (db, p, false).
Proof.
  intros L H. rewrite (gnp_unfold 1). cbn [label_of option_map falsy]. rewrite (kids_lay cfg _ _ _ _ _ _ _ L H).
  unfold generate_path. set (g := generate_label _ None None). assert (E : g <> Err InvalidLabelConstraints).
  { intros E. apply generate_constraints in E. destruct E as (x & E & _). discriminate. }
  destruct g as [lab|[]]; cbn [bind]; auto. congruence.
Qed.

(** After the last sibling. *)
Lemma last_path t f q pa l last : lay t f -> At q pa l l f f -> last_opt (sibrows q l) = Some last ->
  exists lab, generate_path q None (Some (last_label (l_path last))) (map l_path (sibrows q l)) = Ok (q ++ [lab]) /\
    found t f q pa l (nodes l) [] True t lab f l Nil.
Proof.
  intros L H El. assert (Wl := k_At_pwf_l _ _ _ _ _ _ H (proj1 L)). assert (Vl := kvalid_At_l cfg _ _ _ _ _ _ H (proj1 (proj2 L))).
  unfold generate_path. rewrite skip_labels by auto.
  assert (Ta := top_last q _ Wl). rewrite El in Ta. cbn [label_of option_map] in Ta.
  set (a := last_label (l_path last)) in *.
  assert (Tb : bot Nil None) by reflexivity.
  assert (Ef : l = fapp l Nil) by (rewrite fapp_nil_r; auto).
  assert (Wf : kpwf (fapp l Nil)) by (rewrite <- Ef; auto). assert (Vf : kvalid (fapp l Nil)) by (rewrite <- Ef; auto).
  destruct (gen_room l Nil (Some a) None Ta Tb Wf Vf) as (lab & G).
  { left. discriminate. }
  { intros (x & E & _). discriminate. }
  rewrite <- Ef in G. rewrite G. cbn [bind]. exists lab. split; auto.
  assert (Ne : Some a <> None \/ @None label <> None) by (left; discriminate).
  destruct (gen_between (labels l) l Nil (Some a) None lab Ta Tb Wl I Vl (Forall_nil _) Ne G) as (B & G1 & G2 & G3 & _).
  constructor; auto; rewrite <- ?Ef; auto using tp_refl.
  eapply lab_len; eauto. rewrite <- Ef. eauto.
Qed.

End New.
