(** Adding and moving in adjacency lists. *)
From Coq Require Import String List Arith ZArith Lia Bool Permutation Sorted.
From Verif Require Import Prelude Forest SpecFacts SpecSane CommonModel Order History SpecRun SpecKids ALModel ALInv ALReads.
Import ListNotations.

(** [G] is [F] with [x] taken out (if it is there) and put below [up] between [L1] and [L2]. *)
Definition put (F G : forest node) (up : option nat) (x : node) (L1 L2 : list node) : Prop :=
  drop (nid x) (kl up F) = L1 ++ L2 /\ kl up G = L1 ++ x :: L2 /\
  forall q, q <> up -> kl q G = drop (nid x) (kl q F).

Lemma added_put F G up x L1 L2 : added F G up x L1 L2 -> ~ In (nid x) (ids F) -> put F G up x L1 L2.
Proof.
  intros A Hx. assert (D : forall q, drop (nid x) (kl q F) = kl q F).
  { intros q. apply drop_notin. rewrite in_map_iff. intros (y & E & Hy). apply Hx. rewrite <- E. eapply kl_in; eauto. }
  split; [rewrite D; apply kl_kid_list, (ad_before _ _ _ _ _ _ A)|]. split; [apply kl_kid_list, (ad_after _ _ _ _ _ _ A)|].
  intros q Hq. rewrite D. destruct (opt_dec q (Some (nid x))) as [->|Nx].
  - rewrite (kl_notin _ F Hx). apply kl_kid_list, (ad_leaf _ _ _ _ _ _ A).
  - unfold kl. rewrite (ad_rest _ _ _ _ _ _ A q Hq Nx). auto.
Qed.

Lemma moved_put F G up x L1 L2 : SpecSane.moved F G up x L1 L2 -> put F G up x L1 L2.
Proof.
  intros M. destruct (mv_before _ _ _ _ _ _ M) as (L & E & D). split; [rewrite (kl_kid_list _ _ _ E); auto|].
  split; [apply kl_kid_list, (mv_after _ _ _ _ _ _ M)|]. intros q Hq. unfold kl. rewrite (mv_rest _ _ _ _ _ _ M q Hq).
  destruct (kid_list q F); auto.
Qed.

Lemma put_self F up x L1 L2 : wf_ids F -> kl up F = L1 ++ x :: L2 -> put F F up x L1 L2.
Proof.
  intros W E. assert (Hx : In x (kl up F)) by (rewrite E; apply in_app_iff; cbn; auto).
  assert (ND := kl_nodup up F W). rewrite E, map_app in ND. cbn [map] in ND. apply NoDup_remove_2 in ND.
  rewrite <- map_app in ND. split; [|split]; auto.
  - assert (Ed : drop (nid x) (x :: L2) = drop (nid x) L2) by (unfold drop; cbn [filter]; rewrite Nat.eqb_refl; auto).
    rewrite E, drop_app, Ed, <- drop_app. apply drop_notin. auto.
  - intros q Hq. symmetry. apply drop_notin. rewrite in_map_iff. intros (y & Ey & Hy).
    destruct (kl_unique _ _ _ _ _ W Hx Hy (eq_sym Ey)). congruence.
Qed.

(** ** Rows *)
Definition upd (so : nat -> Z) (i : nat) (s : Z) : nat -> Z := fun j => if j =? i then s else so j.

Lemma upd_same so i s : upd so i s i = s.
Proof. unfold upd. rewrite Nat.eqb_refl. auto. Qed.
Lemma upd_other so i s j : j <> i -> upd so i s j = so j.
Proof. unfold upd. destruct (Nat.eqb_spec j i); congruence. Qed.

Lemma save_perm t r : NoDup (map a_pk t) ->
  Permutation (save_row t r) (r :: filter (fun x => negb (a_pk x =? a_pk r)) t).
Proof.
  intros ND. unfold save_row. destruct (existsb (fun x => a_pk x =? a_pk r) t) eqn:E.
  - induction t as [|y t IH]; [discriminate|]. cbn [map] in ND. apply NoDup_cons_iff in ND. destruct ND as (N1 & N2).
    cbn [map filter existsb] in *. destruct (Nat.eqb_spec (a_pk y) (a_pk r)) as [Ey|Ny]; cbn [negb].
    + constructor. rewrite filter_all. 2: { intros x Hx. apply negb_true_iff, Nat.eqb_neq. intros Ex. apply N1. rewrite Ey, <- Ex. apply in_map. auto. }
      rewrite (map_ext_in _ id). { rewrite map_id. auto. }
      intros x Hx. destruct (Nat.eqb_spec (a_pk x) (a_pk r)) as [Ex|]; auto. exfalso. apply N1. rewrite Ey, <- Ex. apply in_map. auto.
    + rewrite IH; auto. apply perm_swap.
  - rewrite filter_all; auto. intros x Hx. apply negb_true_iff. rewrite existsb_false in E. auto.
Qed.

Lemma fits_perm so t t' F : Permutation t t' -> fits so t F -> fits so t' F.
Proof. intros P H p. rewrite <- (Permutation_filter _ P). auto. Qed.

Lemma fits_kl so t F G : (forall p, kl p G = kl p F) -> fits so t F -> fits so t G.
Proof. intros E H p. rewrite E. auto. Qed.
Lemma inc_kl so F G : (forall p, kl p G = kl p F) -> inc so F -> inc so G.
Proof. intros E H p. rewrite E. auto. Qed.

Lemma filter_comm {A} (f g : A -> bool) l : filter f (filter g l) = filter g (filter f l).
Proof.
  induction l as [|x l IH]; auto. cbn. destruct (g x) eqn:G; cbn; destruct (f x) eqn:H; cbn; rewrite ?G, ?H, IH; auto.
Qed.

Lemma drop_rows so p i L : filter (fun x => negb (a_pk x =? i)) (map (arow so p) L) = map (arow so p) (drop i L).
Proof. rewrite filter_map. auto. Qed.

Lemma arow_upd so p i s L : map (arow (upd so i s) p) (drop i L) = map (arow so p) (drop i L).
Proof.
  apply map_ext_in. intros a Ha. apply drop_in in Ha. unfold arow. rewrite upd_other; tauto.
Qed.

Lemma fits_put so t F G up x L1 L2 s : wf_ids F -> fits so t F -> put F G up x L1 L2 ->
  fits (upd so (nid x) s) (save_row t (mkAL (nid x) up s (ndata x))) G.
Proof.
  intros W Fit (P1 & P2 & P3). set (r := mkAL (nid x) up s (ndata x)).
  eapply fits_perm; [symmetry; apply save_perm, (nodup_pks so t F W Fit)|]. intros p. cbn [filter].
  change (a_parent r) with up. change (a_pk r) with (nid x).
  assert (Er : r = arow (upd so (nid x) s) up x) by (unfold arow; rewrite upd_same; auto).
  rewrite filter_comm. assert (Q := Permutation_filter (fun y => negb (a_pk y =? nid x)) (Fit p)). rewrite drop_rows in Q.
  destruct (par_eqb up p) eqn:E.
  - apply par_eqb_spec in E. subst p. rewrite P2, map_app. cbn [map]. rewrite Er. rewrite Q. rewrite <- (arow_upd so up (nid x) s), P1, map_app.
    apply Permutation_middle.
  - apply par_eqb_false in E. rewrite P3 by congruence. rewrite Q, arow_upd. auto.
Qed.

Lemma StronglySorted_filter {A} (R : A -> A -> Prop) f l : StronglySorted R l -> StronglySorted R (filter f l).
Proof.
  induction 1 as [|a l S IH Hf]; [constructor|]. cbn. destruct (f a); auto. constructor; auto.
  apply Forall_forall. intros x Hx. apply filter_In in Hx. rewrite Forall_forall in Hf. apply Hf. tauto.
Qed.

Lemma inc_drop so i L : inc_list so L -> inc_list so (drop i L).
Proof.
  intros (S & P). split; [apply StronglySorted_filter; auto|]. apply Forall_forall. intros a Ha. apply drop_in in Ha.
  rewrite Forall_forall in P. apply P. tauto.
Qed.

Lemma inc_ext so so' L : (forall a, In a L -> so' (nid a) = so (nid a)) -> inc_list so L -> inc_list so' L.
Proof.
  intros E (S & P). split.
  - eapply StronglySorted_In; [|exact S]. intros a b Ha Hb H. cbn beta. rewrite !E; auto.
  - apply Forall_forall. intros a Ha. rewrite E by auto. rewrite Forall_forall in P. auto.
Qed.

Lemma ssorted_mid {A} (R : A -> A -> Prop) L1 x L2 : StronglySorted R (L1 ++ L2) ->
  (forall a, In a L1 -> R a x) -> (forall a, In a L2 -> R x a) -> StronglySorted R (L1 ++ x :: L2).
Proof.
  induction L1 as [|y L1 IH]; cbn [app]; intros S H1 H2.
  - constructor; auto. apply Forall_forall. auto.
  - apply StronglySorted_inv in S. destruct S as (S & Hf). constructor.
    + apply IH; auto. intros a Ha. apply H1. cbn; auto.
    + rewrite Forall_forall in *. intros z Hz. apply in_app_iff in Hz. cbn [In] in Hz. destruct Hz as [Hz|[<-|Hz]].
      * apply Hf, in_app_iff; auto.
      * apply H1; cbn; auto.
      * apply Hf, in_app_iff; auto.
Qed.

Lemma inc_put so F G up x L1 L2 s : inc so F -> put F G up x L1 L2 ->
  (forall a, In a L1 -> (so (nid a) < s)%Z) -> (forall a, In a L2 -> (s < so (nid a))%Z) -> (1 <= s)%Z ->
  inc (upd so (nid x) s) G.
Proof.
  intros I (P1 & P2 & P3) H1 H2 Hs p. set (so' := upd so (nid x) s).
  assert (D : forall q a, In a (drop (nid x) (kl q F)) -> so' (nid a) = so (nid a)).
  { intros q a Ha. apply drop_in in Ha. unfold so'. apply upd_other. tauto. }
  assert (D1 := D up). rewrite P1 in D1.
  assert (Ex : so' (nid x) = s) by apply upd_same.
  assert (J : forall q, inc_list so' (drop (nid x) (kl q F))).
  { intros q. eapply inc_ext; [apply D|]. apply inc_drop, I. }
  destruct (opt_dec p up) as [->|N]; [|rewrite P3; auto].
  assert (Ju := J up). rewrite P1 in Ju. destruct Ju as (S & Q). rewrite P2. split.
  - apply ssorted_mid; auto; intros a Ha; rewrite Ex, D1 by (apply in_app_iff; auto); auto.
  - rewrite Forall_forall in *. intros a Ha. apply in_app_iff in Ha. cbn [In] in Ha. destruct Ha as [Ha|[<-|Ha]].
    + apply Q, in_app_iff; auto.
    + rewrite Ex. auto.
    + apply Q, in_app_iff; auto.
Qed.

(** ** Making room *)
Lemma fits_resib so so1 t F : wf_ids F -> fits so t F -> fits so1 (map (fun r => mkAL (a_pk r) (a_parent r) (so1 (a_pk r)) (a_data r)) t) F.
Proof.
  intros W Fit p. rewrite filter_map. cbn [a_parent]. rewrite (Permutation_map _ (Fit p)), map_map. auto.
Qed.

Lemma agg_min l : match agg Z.min l with
  | None => l = []
  | Some m => In m l /\ forall x, In x l -> (m <= x)%Z
  end.
Proof.
  destruct l as [|x0 l]; [reflexivity|]. cbn [agg]. revert x0. induction l as [|y l IH]; intros x.
  - cbn. split; auto. intros z [<-|[]]. lia.
  - cbn [fold_left]. specialize (IH (Z.min x y)). destruct IH as (H1 & H2). split.
    + destruct H1 as [H1|H1]; [|cbn; auto]. cbn. destruct (Z.min_spec x y) as [(_ & E)|(_ & E)]; rewrite E in *; auto.
    + intros z Hz. assert (Hm := H2 (Z.min x y) (or_introl eq_refl)).
      destruct Hz as [<-|[<-|Hz]]; [lia|lia|]. apply H2. cbn; auto.
Qed.

Lemma agg_max l : match agg Z.max l with
  | None => l = []
  | Some m => In m l /\ forall x, In x l -> (x <= m)%Z
  end.
Proof.
  destruct l as [|x0 l]; [reflexivity|]. cbn [agg]. revert x0. induction l as [|y l IH]; intros x.
  - cbn. split; auto. intros z [<-|[]]. lia.
  - cbn [fold_left]. specialize (IH (Z.max x y)). destruct IH as (H1 & H2). split.
    + destruct H1 as [H1|H1]; [|cbn; auto]. cbn. destruct (Z.max_spec x y) as [(_ & E)|(_ & E)]; rewrite E in *; auto.
    + intros z Hz. assert (Hm := H2 (Z.max x y) (or_introl eq_refl)).
      destruct Hz as [<-|[<-|Hz]]; [lia|lia|]. apply H2. cbn; auto.
Qed.

Definition in_list (i : nat) (L : list node) : bool := existsb (fun a => nid a =? i) L.

Lemma in_list_spec F p q a : wf_ids F -> In a (kl p F) -> in_list (nid a) (kl q F) = true <-> p = q.
Proof.
  intros W Ha. unfold in_list. rewrite existsb_exists. split.
  - intros (b & Hb & E). apply Nat.eqb_eq in E. symmetry. apply (kl_unique _ _ _ _ _ W Hb Ha E).
  - intros <-. exists a. rewrite Nat.eqb_refl. auto.
Qed.

Lemma hole so t F up (c : Z -> bool) : wf_ids F -> fits so t F -> inc so F ->
  (forall u v, c u = true -> (u <= v)%Z -> c v = true) ->
  let m := or0 (agg Z.min (map a_sib (filter (fun r => c (a_sib r)) (kids [] t up)))) in
  let t1 := if (m =? 0)%Z then t
            else map (fun r => if (m <=? a_sib r)%Z && par_eqb (a_parent r) up then inc_sib r else r) t in
  exists so1, fits so1 t1 F /\ inc so1 F /\
    forall a, In a (kl up F) -> so1 (nid a) = if c (so (nid a)) then (so (nid a) + 1)%Z else so (nid a).
Proof.
  intros W Fit I Mono m t1. assert (Ls := unsorted_lists so t F Fit I).
  set (so1 := fun i => if in_list i (kl up F) && c (so i) then (so i + 1)%Z else so i).
  assert (K : map a_sib (filter (fun r => c (a_sib r)) (kids [] t up)) = map (fun a => so (nid a)) (filter (fun a => c (so (nid a))) (kl up F))).
  { rewrite (Ls up), filter_map, map_map. auto. }
  assert (Pos : forall p a, In a (kl p F) -> (1 <= so (nid a))%Z).
  { intros p a Ha. destruct (I p) as (_ & H). rewrite Forall_forall in H. auto. }
  assert (E1 : t1 = map (fun r => mkAL (a_pk r) (a_parent r) (so1 (a_pk r)) (a_data r)) t).
  { assert (B : forall r, In r t -> (if (m =? 0)%Z then r else if (m <=? a_sib r)%Z && par_eqb (a_parent r) up then inc_sib r else r)
      = mkAL (a_pk r) (a_parent r) (so1 (a_pk r)) (a_data r)).
    { intros r Hr. destruct (fits_pk so t F W Fit r Hr) as (H1 & H2 & H3 & H4).
      assert (M := agg_min (map a_sib (filter (fun r => c (a_sib r)) (kids [] t up)))).
      unfold so1. destruct (in_list (a_pk r) (kl up F)) eqn:El.
      - change (a_pk r) with (nid (row_node r)) in El. apply (in_list_spec F _ up _ W H3) in El.
        rewrite El, par_eqb_refl, andb_true_r. cbn [andb]. subst m. destruct (agg Z.min _) as [m|]; cbn [or0].
        + destruct M as (M1 & M2). rewrite K in M1, M2. apply in_map_iff in M1. destruct M1 as (b & Eb & Hb).
          apply filter_In in Hb. destruct Hb as (Hb & Cb). assert (Pb := Pos _ _ Hb).
          replace (m =? 0)%Z with false by (symmetry; apply Z.eqb_neq; lia). rewrite <- H4.
          destruct (m <=? a_sib r)%Z eqn:Em.
          * apply Z.leb_le in Em. rewrite (Mono (so (nid b)) (a_sib r)) by (auto; lia). unfold inc_sib. rewrite El. auto.
          * apply Z.leb_gt in Em. destruct (c (a_sib r)) eqn:Cr.
            -- exfalso. assert (m <= a_sib r)%Z; [|lia]. apply M2. rewrite H4. apply in_map_iff.
               exists (row_node r). split; auto. rewrite <- El. apply filter_In. split; auto. cbn. rewrite <- H4. auto.
            -- destruct r; cbn in *; congruence.
        + change (0 =? 0)%Z with true. cbn iota. rewrite <- H4. destruct (c (a_sib r)) eqn:Cr.
          * exfalso. rewrite K in M. assert (X : In (row_node r) (filter (fun a => c (so (nid a))) (kl up F))).
            { rewrite <- El. apply filter_In. split; auto. cbn. rewrite <- H4. auto. }
            destruct (filter _ (kl up F)); [destruct X|discriminate].
          * destruct r; cbn in *; congruence.
      - replace (par_eqb (a_parent r) up) with false.
        + rewrite andb_false_r, <- H4. cbn [andb]. destruct (m =? 0)%Z; destruct r; auto.
        + symmetry. apply par_eqb_false. intros E. change (a_pk r) with (nid (row_node r)) in El.
          rewrite (proj2 (in_list_spec F _ up _ W H3) E) in El. discriminate. }
    subst t1. destruct (m =? 0)%Z eqn:Em.
    - rewrite <- (map_id t) at 1. apply map_ext_in. auto.
    - apply map_ext_in. auto. }
  exists so1. split; [rewrite E1; apply (fits_resib so); auto|].
  assert (Q : forall a, In a (kl up F) -> so1 (nid a) = if c (so (nid a)) then (so (nid a) + 1)%Z else so (nid a)).
  { intros a Ha. unfold so1. rewrite (proj2 (in_list_spec F up up a W Ha) eq_refl). auto. }
  split; auto. intros p. destruct (opt_dec p up) as [->|N].
  - destruct (I up) as (S & P). split.
    + eapply StronglySorted_In; [|exact S]. cbn beta. intros a b Ha Hb H. rewrite !Q by auto.
      destruct (c (so (nid a))) eqn:Ca.
      * rewrite (Mono (so (nid a)) (so (nid b))); auto; lia.
      * destruct (c (so (nid b))); lia.
    + apply Forall_forall. intros a Ha. rewrite Q by auto. assert (X := Pos _ _ Ha). destruct (c (so (nid a))); lia.
  - eapply inc_ext; [|apply (I p)]. intros a Ha. unfold so1.
    destruct (in_list (nid a) (kl up F)) eqn:El; auto. apply (in_list_spec F p up a W Ha) in El. congruence.
Qed.

(** Which siblings come after the new place. *)
Definition goes_after (so : nat -> Z) (P : pos) (tg : nat) (a : nat) : bool :=
  match P with
  | Left => (so tg <=? so a)%Z
  | Right => (so tg <? so a)%Z
  | FirstSibling => true
  | _ => false
  end.

Lemma last_row {A B} (f : A -> B) L x : last_opt (map f L) = Some x -> exists L' a, L = L' ++ [a] /\ x = f a.
Proof.
  unfold last_opt. rewrite <- map_rev. destruct (rev L) as [|a R] eqn:E; [discriminate|]. cbn. intros H. injection H as <-.
  exists (rev R), a. split; auto. rewrite <- (rev_involutive L), E. auto.
Qed.

Lemma last_nonempty {A B} (f : A -> B) L a : In a L -> exists x, last_opt (map f L) = Some x.
Proof.
  intros H. unfold last_opt. rewrite <- map_rev. apply in_rev in H. destruct (rev L); [destruct H|]. cbn. eauto.
Qed.

Lemma inc_last so L a : inc_list so (L ++ [a]) -> forall b, In b (L ++ [a]) -> (so (nid b) <= so (nid a))%Z.
Proof.
  intros (S & _) b Hb. apply in_app_iff in Hb. destruct Hb as [Hb|[<-|[]]]; [|lia].
  induction L as [|y L IH]; [destruct Hb|]. cbn [app] in S. apply StronglySorted_inv in S. destruct S as (S & Hf).
  destruct Hb as [<-|Hb]; auto. rewrite Forall_forall in Hf. assert (so (nid y) < so (nid a))%Z; [|lia].
  apply Hf, in_app_iff. cbn; auto.
Qed.

Lemma new_sibling_order so t F tg P : wf_ids F -> fits so t F -> inc so F -> In tg t -> is_sib_pos P -> P <> SortedSibling ->
  exists t1 so1 s, get_new_sibling_order [] t P tg = Ok (t1, s) /\ fits so1 t1 F /\ inc so1 F /\ (1 <= s)%Z /\
    forall a, In a (kl (a_parent tg) F) ->
      if goes_after so P (a_pk tg) (nid a) then (s < so1 (nid a))%Z else (so1 (nid a) < s)%Z.
Proof.
  intros W Fit I Ht SP NS. assert (Ls := unsorted_lists so t F Fit I).
  destruct (fits_pk so t F W Fit tg Ht) as (H1 & H2 & H3 & H4).
  assert (Sib : get_siblings [] t tg = kids [] t (a_parent tg)) by (unfold get_siblings; destruct (a_parent tg); auto).
  assert (Pos : forall p a, In a (kl p F) -> (1 <= so (nid a))%Z).
  { intros p a Ha. destruct (I p) as (_ & H). rewrite Forall_forall in H. auto. }
  assert (Ptg : (1 <= a_sib tg)%Z) by (rewrite H4; apply (Pos _ _ H3)).
  destruct (last_nonempty (arow so (a_parent tg)) _ _ H3) as (l & El).
  assert (Elast : get_last_sibling [] t tg = Some l) by (unfold get_last_sibling; rewrite Sib, (Ls (a_parent tg)); auto).
  destruct (last_row _ _ _ El) as (L' & z & EL & ->).
  assert (Hz := I (a_parent tg)). rewrite EL in Hz. assert (Hz' := inc_last _ _ _ Hz).
  assert (Pz : (1 <= so (nid z))%Z) by (apply (Pos (a_parent tg)); rewrite EL; apply in_app_iff; cbn; auto).
  unfold get_new_sibling_order, is_target_pos_the_last_sibling. rewrite Elast. cbn [arow a_pk a_sib].
  assert (Last : exists t1 so1 s, Ok (t, (so (nid z) + 1)%Z) = Ok (t1, s) /\ fits so1 t1 F /\ inc so1 F /\ (1 <= s)%Z /\
    forall a, In a (kl (a_parent tg) F) -> (so1 (nid a) < s)%Z).
  { exists t, so, (so (nid z) + 1)%Z. repeat split; auto; try lia; try apply I. intros a Ha. rewrite EL in Ha. apply Hz' in Ha. lia. }
  destruct P; try contradiction; try congruence.
  - (* first *) unfold make_hole_and_get_sibling_order. cbn [bind]. rewrite Sib.
    destruct (hole so t F (a_parent tg) (fun _ => true) W Fit I) as (so1 & F1 & I1 & Q); auto.
    rewrite filter_all in F1 by auto. set (m := or0 _) in *.
    exists (if (m =? 0)%Z then t else map (fun r => if (m <=? a_sib r)%Z && par_eqb (a_parent r) (a_parent tg) then inc_sib r else r) t), so1, 1%Z.
    split; [destruct (m =? 0)%Z; auto|]. split; auto. split; auto. split; [lia|]. intros a Ha. cbn [goes_after].
    rewrite Q by auto. assert (X := Pos _ _ Ha). lia.
  - (* left *) unfold make_hole_and_get_sibling_order. cbn [bind]. rewrite Sib.
    destruct (hole so t F (a_parent tg) (fun z => a_sib tg <=? z)%Z W Fit I) as (so1 & F1 & I1 & Q); auto.
    { intros u v Hu Huv. apply Z.leb_le in Hu. apply Z.leb_le. lia. }
    set (m := or0 _) in *.
    exists (if (m =? 0)%Z then t else map (fun r => if (m <=? a_sib r)%Z && par_eqb (a_parent r) (a_parent tg) then inc_sib r else r) t), so1, (a_sib tg).
    split; [destruct (m =? 0)%Z; auto|]. split; auto. split; auto. split; [lia|]. intros a Ha. cbn [goes_after].
    rewrite Q by auto. rewrite <- H4. destruct (a_sib tg <=? so (nid a))%Z eqn:E; [apply Z.leb_le in E|apply Z.leb_gt in E]; lia.
  - (* right *) destruct (Nat.eqb_spec (a_pk tg) (nid z)) as [Ez|Nz].
    + destruct Last as (t1 & so1 & s & E & F1 & I1 & Hs & Q). exists t1, so1, s. repeat split; auto; try apply I1.
      intros a Ha. cbn [goes_after]. replace (so (a_pk tg) <? so (nid a))%Z with false; [auto|].
      symmetry. apply Z.ltb_ge. rewrite Ez. apply Hz'. rewrite <- EL. auto.
    + unfold make_hole_and_get_sibling_order. cbn [bind]. rewrite Sib.
      destruct (hole so t F (a_parent tg) (fun z => a_sib tg <? z)%Z W Fit I) as (so1 & F1 & I1 & Q); auto.
      { intros u v Hu Huv. apply Z.ltb_lt in Hu. apply Z.ltb_lt. lia. }
      set (m := or0 _) in *.
      exists (if (m =? 0)%Z then t else map (fun r => if (m <=? a_sib r)%Z && par_eqb (a_parent r) (a_parent tg) then inc_sib r else r) t), so1, (a_sib tg + 1)%Z.
      split; [destruct (m =? 0)%Z; auto|]. split; auto. split; auto. split; [lia|]. intros a Ha. cbn [goes_after].
      rewrite Q by auto. rewrite <- H4. destruct (a_sib tg <? so (nid a))%Z eqn:E; [apply Z.ltb_lt in E|apply Z.ltb_ge in E]; lia.
  - (* last *) destruct Last as (t1 & so1 & s & E & F1 & I1 & Hs & Q). exists t1, so1, s. repeat split; auto; apply I1.
Qed.

(** The split of the specification agrees with the sib_order values. *)
Lemma ssorted_app {A} (R : A -> A -> Prop) L1 L2 : StronglySorted R (L1 ++ L2) ->
  forall a b, In a L1 -> In b L2 -> R a b.
Proof.
  induction L1 as [|y L1 IH]; cbn [app]; intros S a b Ha Hb; [destruct Ha|].
  apply StronglySorted_inv in S. destruct S as (S & Hf). destruct Ha as [<-|Ha]; [|eauto].
  rewrite Forall_forall in Hf. apply Hf, in_app_iff. auto.
Qed.

Lemma split_after so P tg gt L1 L2 : is_sib_pos P -> P <> SortedSibling -> inc_list so (L1 ++ L2) ->
  ins_split (sib_place P tg gt) L1 L2 ->
  (forall a, In a L1 -> goes_after so P tg (nid a) = false) /\ (forall a, In a L2 -> goes_after so P tg (nid a) = true).
Proof.
  intros SP NS (S & _) Sp. assert (X := ssorted_app _ _ _ S). destruct P; cbn [sib_place ins_split goes_after] in *; try contradiction; try congruence.
  - subst L1. split; auto. intros a [].
  - destruct Sp as (N & b & L & -> & <-). split.
    + intros a Ha. apply Z.leb_gt. apply (X a b); cbn; auto.
    + intros a [<-|Ha]; apply Z.leb_le; [lia|].
      assert (so (nid b) < so (nid a))%Z; [|lia]. assert (S' : StronglySorted (fun a b : node => (so (nid a) < so (nid b))%Z) ((L1 ++ [b]) ++ L)) by (rewrite <- app_assoc; auto).
      apply (ssorted_app _ _ _ S' b a); auto. apply in_app_iff; cbn; auto.
  - destruct Sp as (L & b & -> & <- & N). split.
    + intros a Ha. apply Z.ltb_ge. apply in_app_iff in Ha. destruct Ha as [Ha|[<-|[]]]; [|lia].
      assert (so (nid a) < so (nid b))%Z; [|lia]. rewrite <- app_assoc in S. cbn [app] in S.
      apply (ssorted_app _ _ _ S a b); cbn; auto.
    + intros a Ha. apply Z.ltb_lt. apply (X b a); auto. apply in_app_iff; cbn; auto.
  - subst L2. split; auto; intros a [].
Qed.

(** Inserting or moving next to [tg]. *)
Lemma put_next so t F G tg P gt x L1 L2 : wf_ids F -> fits so t F -> inc so F -> In tg t -> is_sib_pos P -> P <> SortedSibling ->
  put F G (a_parent tg) x L1 L2 -> ins_split (sib_place P (a_pk tg) gt) L1 L2 ->
  exists t1 s so1, get_new_sibling_order [] t P tg = Ok (t1, s) /\
    fits so1 (save_row t1 (mkAL (nid x) (a_parent tg) s (ndata x))) G /\ inc so1 G.
Proof.
  intros W Fit I Ht SP NS Pu Sp. destruct (new_sibling_order so t F tg P W Fit I Ht SP NS) as (t1 & so1 & s & E & F1 & I1 & Hs & Q).
  exists t1, s, (upd so1 (nid x) s). split; auto.
  split; [apply (fits_put so1 t1 F G (a_parent tg) x L1 L2); auto|].
  assert (J := inc_drop so (nid x) _ (I (a_parent tg))). rewrite (proj1 Pu) in J.
  destruct (split_after so P (a_pk tg) gt L1 L2 SP NS J Sp) as (A1 & A2).
  assert (Sub : forall a, In a (L1 ++ L2) -> In a (kl (a_parent tg) F)).
  { intros a Ha. rewrite <- (proj1 Pu) in Ha. apply drop_in in Ha. tauto. }
  apply (inc_put so1 F G (a_parent tg) x L1 L2); auto.
  - intros a Ha. specialize (Q a (Sub a (proj2 (in_app_iff _ _ _) (or_introl Ha)))). rewrite A1 in Q; auto.
  - intros a Ha. specialize (Q a (Sub a (proj2 (in_app_iff _ _ _) (or_intror Ha)))). rewrite A2 in Q; auto.
Qed.
