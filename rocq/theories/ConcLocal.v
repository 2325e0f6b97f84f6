(** Transactions that read and write only rows of their own (C66, C67): the others do not
    disturb them. *)
From Coq Require Import List Arith Lia Bool Permutation.
From Verif Require Import Prelude ConcModel ConcRun ConcLock ConcAlone.
From Verif Require ConcNS.
Import ListNotations.

Section Local.
Variable R : Type.
Variable pk : R -> nat.
Variable same : R -> R -> bool.
Hypothesis same_pk : forall a b, pk a = pk b -> same a b = true.
(** Rows whose columns fit together. *)
Variable V : R -> Prop.
Notation solo := (solo pk same).
Notation alone := (alone R pk same).

(** The rows of a domain: by their columns, and by their primary keys. *)
Section Domain.
Variable D : R -> bool.
Variable K : nat -> bool.

Record home (t : list R) : Prop := {
  h_keys : NoDup (map pk t);
  h_dom : forall r, In r t -> D r = K (pk r);
  h_valid : forall r, In r t -> V r }.

Definition mine (r : R) : Prop := D r = true \/ K (pk r) = true.

(** The statements concern rows of the domain only, and what is done after reading depends
    on the rows of the domain only. *)
Fixpoint local (p : prog R) : Prop :=
  match p with
  | Commit | Raise _ => True
  | SelectForUpdate k c => K k = true /\ forall o, (forall r, o = Some r -> D r = true /\ pk r = k /\ V r) -> local (c o)
  | Select c => forall t, home t -> local (c t) /\ forall t', home t' -> filter D t' = filter D t -> c t' = c t
  | Update sel f c => (forall r, sel r = true -> pk (f r) = pk r /\ (V r -> mine r /\ V (f r) /\ (D r = true -> D (f r) = true))) /\ local c
  | Delete sel c => (forall r, V r -> sel r = true -> mine r) /\ local c
  | Insert r c => D r = true /\ K (pk r) = true /\ V r /\ (forall r', V r' -> same r r' = true -> mine r') /\ local c
  end.

(** The same for a transaction that sees the rows [v] in the domain. *)
Fixpoint local_at (v : list R) (p : prog R) : Prop :=
  match p with
  | Commit | Raise _ => True
  | SelectForUpdate k c => K k = true /\ local_at v (c (hd_error (filter (fun r => pk r =? k) v)))
  | Select c => forall t, home t -> filter D t = v -> local_at v (c t) /\ forall t', home t' -> filter D t' = v -> c t' = c t
  | Update sel f c => (forall r, sel r = true -> pk (f r) = pk r /\ (V r -> mine r /\ V (f r) /\ (D r = true -> D (f r) = true))) /\
      local_at (map (fun r => if sel r then f r else r) v) c
  | Delete sel c => (forall r, V r -> sel r = true -> mine r) /\ local_at (filter (fun r => negb (sel r)) v) c
  | Insert r c => D r = true /\ K (pk r) = true /\ V r /\ (forall r', V r' -> same r r' = true -> mine r') /\
      (existsb (same r) v = false -> local_at (r :: v) c)
  end.

Lemma home_mine t r : home t -> In r t -> mine r -> D r = true.
Proof. intros H Hr [M|M]; auto. rewrite (h_dom _ H); auto. Qed.

Lemma map_home sel f t : home t -> (forall r, sel r = true -> pk (f r) = pk r /\ (V r -> mine r /\ V (f r) /\ (D r = true -> D (f r) = true))) ->
  home (map (fun r => if sel r then f r else r) t) /\
  filter D (map (fun r => if sel r then f r else r) t) = map (fun r => if sel r then f r else r) (filter D t).
Proof.
  intros H L. split.
  - split.
    + rewrite (ConcAlone.map_keyed R pk sel f t); [apply H|]. intros r E. apply L. auto.
    + intros r Hr. apply in_map_iff in Hr. destruct Hr as (a & <- & Ha). destruct (sel a) eqn:E; [|apply H; auto].
      destruct (L a E) as (Ek & Lv). destruct (Lv (h_valid _ H a Ha)) as (M & Va & Ed).
      assert (Da := home_mine t a H Ha M). rewrite Ek, <- (h_dom _ H) by auto. rewrite Da. auto.
    + intros r Hr. apply in_map_iff in Hr. destruct Hr as (a & <- & Ha). destruct (sel a) eqn:E; [|apply H; auto].
      apply L; auto. apply H. auto.
  - assert (G : forall r, In r t -> sel r = true -> D r = true /\ D (f r) = true).
    { intros r Hr E. destruct (L r E) as (_ & Lv). destruct (Lv (h_valid _ H r Hr)) as (M & _ & Ed). assert (Da := home_mine t r H Hr M). auto. }
    clear H L. induction t as [|a t IH]; cbn; auto. rewrite IH by (intros; apply G; cbn; auto).
    destruct (sel a) eqn:E.
    + destruct (G a (or_introl eq_refl) E) as [-> ->]. cbn. rewrite E. auto.
    + destruct (D a); cbn; rewrite ?E; auto.
Qed.

Lemma filter_home (g : R -> bool) t : home t -> home (filter g t).
Proof.
  intros H. split; [apply ConcNS.nodup_filter, H| |]; intros r Hr; apply filter_In in Hr; apply H; tauto.
Qed.

Lemma filter_comm (g h : R -> bool) t : filter g (filter h t) = filter h (filter g t).
Proof. induction t as [|a t IH]; cbn; auto. destruct (g a) eqn:Eg, (h a) eqn:Eh; cbn; rewrite ?Eg, ?Eh, IH; auto. Qed.

Lemma sel_dom (sel : R -> bool) t : home t -> (forall r, V r -> sel r = true -> mine r) -> filter sel t = filter sel (filter D t).
Proof.
  intros H M. rewrite filter_comm. assert (G : forall r, In r t -> sel r = true -> D r = true) by (intros; eapply home_mine; eauto; apply M; auto; eapply h_valid; eauto).
  clear H M. induction t as [|a t IH]; cbn; auto. assert (IH' := IH (fun r Hr => G r (or_intror Hr))).
  destruct (sel a) eqn:E; auto. cbn. rewrite (G a); cbn; auto. f_equal. auto.
Qed.

Lemma exists_dom (sel : R -> bool) t : home t -> (forall r, V r -> sel r = true -> mine r) -> existsb sel t = existsb sel (filter D t).
Proof.
  intros H M. apply eq_iff_eq_true. rewrite !existsb_exists. split; intros (r & Hr & E).
  - exists r. split; auto. apply filter_In. split; auto. eapply home_mine; eauto. apply M; auto. eapply h_valid; eauto.
  - apply filter_In in Hr. exists r. tauto.
Qed.

Lemma home_cons r t : home t -> D r = true -> K (pk r) = true -> V r -> existsb (same r) t = false -> home (r :: t).
Proof.
  intros H Dr Kr Vr E. split.
  - apply (ConcAlone.fresh_key R pk same); auto. apply H.
  - intros a [<-|Ha]; [congruence|]. apply H. auto.
  - intros a [<-|Ha]; auto. apply H. auto.
Qed.

(** The row of a key of the domain. *)
Lemma key_dom k t : home t -> K k = true -> filter (fun r => pk r =? k) t = filter (fun r => pk r =? k) (filter D t).
Proof. intros H Kk. apply (sel_dom _ _ H). intros r _ E. apply Nat.eqb_eq in E. right. rewrite E. auto. Qed.

Lemma key_row k t r : home t -> K k = true -> hd_error (filter (fun r => pk r =? k) t) = Some r -> In r t /\ D r = true /\ pk r = k /\ V r.
Proof.
  intros H Kk E. destruct (filter (fun r => pk r =? k) t) as [|a l] eqn:El; [discriminate|]. injection E as ->.
  assert (E : In r (filter (fun r => pk r =? k) t)) by (rewrite El; left; auto). apply filter_In in E. destruct E as [Hr E].
  apply Nat.eqb_eq in E. split; auto. split; [rewrite (h_dom _ H) by auto; congruence|]. split; auto. apply H. auto.
Qed.

Lemma local_local_at p t : local p -> home t -> local_at (filter D t) p.
Proof.
  revert t. induction p as [|e|k c IH|c IH|sel f c IH|sel c IH|r c IH]; intros t L H; cbn [local local_at] in *; auto.
  - destruct L as [Kk L]. split; auto. rewrite <- key_dom by auto. apply IH; auto. apply L. intros r E. apply (key_row k t); auto.
  - intros t' H' E. destruct (L t' H') as [L1 L2]. split.
    + rewrite <- E. auto.
    + intros t2 H2 E2. apply L2; auto. congruence.
  - destruct L as [Lu L]. split; auto. destruct (map_home sel f t H Lu) as [A B]. rewrite <- B. apply IH; auto.
  - destruct L as [Lu L]. split; auto. rewrite filter_comm. apply IH; auto. apply filter_home. auto.
  - destruct L as (Dr & Kr & Vr & Lu & L). repeat (split; auto). intros Ex. rewrite <- (exists_dom _ _ H Lu) in Ex.
    assert (H' := home_cons r t H Dr Kr Vr Ex). specialize (IH _ L H'). cbn [filter] in IH. rewrite Dr in IH. auto.
Qed.

(** A state of a transaction, as seen from tables with the same rows in the domain. *)
Definition mine_w (w : write R) : Prop := D (written w) = true /\ K (pk (written w)) = true /\ V (written w).

Record calm (e : list R -> res (list R)) (t : list R) (x : tx R) : Prop := {
  c_local : local_at (filter D (visible pk t x)) (x_prog x);
  c_writes : forall w, In w (x_writes x) -> mine_w w;
  c_locks : forall k, In k (x_locks x) -> K k = true;
  c_found : forall ks, x_found x = Some ks ->
    match x_prog x with
    | Update sel _ _ | Delete sel _ => ks = map pk (filter sel (visible pk t x))
    | _ => False
    end;
  c_view : forall t', home t' -> filter D t' = filter D t ->
    home (visible pk t' x) /\ filter D (visible pk t' x) = filter D (visible pk t x) /\
    alone (visible pk t' x) (x_prog x) = e t' }.

Lemma calm_begin e t p : local_at (filter D t) p -> (forall t', e t' = alone t' p) -> calm e t (begin p).
Proof.
  intros L E. split; cbn [begin x_prog x_writes x_locks x_found]; auto; try (intros ? []; fail); try discriminate.
Qed.

Lemma goes_go (t : list R) q ws ls x' : goes t q ws ls = Go x' -> x' = mkTx q ws ls None.
Proof. destruct q; cbn; try discriminate; intros E; injection E as <-; auto. Qed.

Lemma sees_same p ws ls fo t ws' q ls' fo' :
  visible pk t (mkTx p (ws ++ ws') ls fo) = fold_left (apply_write pk) ws' (visible pk t (mkTx q ws ls' fo')).
Proof. unfold visible. cbn. apply fold_left_app. Qed.

Lemma calm_go e t x x' : home t -> calm e t x -> solo t x = Go x' -> calm e t x'.
Proof.
  intros H [L Ws Ls Fo Vw]. destruct (Vw t H eq_refl) as (Hv & _ & _).
  unfold ConcModel.solo. cbv zeta. destruct x as [p ws ls fo]. cbn [x_prog x_found x_writes x_locks] in *.
  set (x := mkTx p ws ls fo) in *.
  assert (Same : forall q l f t', visible pk t' (mkTx q ws l f) = visible pk t' x) by reflexivity.
  assert (Fk : forall sel, (forall r, V r -> sel r = true -> mine r) -> forall k, In k (map pk (filter sel (visible pk t x))) -> K k = true).
  { intros sel M k Hk. apply in_map_iff in Hk. destruct Hk as (r & <- & Hr). apply filter_In in Hr. destruct Hr as [Hr E].
    rewrite <- (h_dom _ Hv r Hr). eapply home_mine; eauto. apply M; auto. apply Hv. auto. }
  destruct p as [|e0|k c|c|sel f c|sel c|r c]; try discriminate.
  - intros E. apply goes_go in E. subst x'. destruct L as [Kk L].
    assert (M : forall r : R, V r -> (pk r =? k) = true -> mine r) by (intros r _ E; apply Nat.eqb_eq in E; right; rewrite E; auto).
    assert (Eo : forall t', home t' -> filter D t' = filter D t ->
      hd_error (filter (fun r => pk r =? k) (visible pk t' x)) = hd_error (filter (fun r => pk r =? k) (visible pk t x))).
    { intros t' H' E'. destruct (Vw t' H' E') as (A & B & _). rewrite (sel_dom _ _ A M), (sel_dom _ _ Hv M), B. auto. }
    set (o := hd_error (filter (fun r => pk r =? k) (visible pk t x))) in *.
    split; cbn [x_prog x_found x_writes x_locks]; auto; try discriminate.
    + rewrite !Same. unfold o. rewrite (key_dom k _ Hv Kk). exact L.
    + intros k' Hk. destruct o; auto. destruct Hk as [<-|Hk]; auto.
    + intros t' H' E'. destruct (Vw t' H' E') as (A & B & C). rewrite !Same. split; auto. split; auto. rewrite <- C. cbn [ConcAlone.alone]. rewrite Eo by auto. auto.
  - intros E. apply goes_go in E. subst x'. destruct (L _ Hv eq_refl) as [Lc Ec].
    split; cbn [x_prog x_found x_writes x_locks]; auto; try discriminate.
    intros t' H' E'. destruct (Vw t' H' E') as (A & B & C). rewrite !Same. split; auto. split; auto. rewrite <- C. cbn [ConcAlone.alone]. rewrite (Ec _ A B). auto.
  - destruct L as [Lu Lc]. destruct fo as [ks|].
    + assert (Ek := Fo ks eq_refl).
      assert (Eh : filter (fun r => sel r && existsb (Nat.eqb (pk r)) ks) (visible pk t x) = filter sel (visible pk t x)) by (rewrite Ek; apply ConcNS.hit_eq).
      rewrite Eh. intros E. apply goes_go in E. subst x'.
      assert (Vis : forall t' ls' fo', home t' -> filter D t' = filter D t ->
        visible pk t' (mkTx c (ws ++ map (fun r => Put (f r)) (filter sel (visible pk t x))) ls' fo') = map (fun r => if sel r then f r else r) (visible pk t' x)).
      { intros t' ls' fo' H' E'. destruct (Vw t' H' E') as (A & B & _). rewrite (sees_same _ _ _ _ _ _ (Update sel f c) ls (Some ks)). fold x.
        rewrite (sel_dom sel _ Hv) by (intros; apply Lu; auto). rewrite <- B, <- (sel_dom sel _ A) by (intros; apply Lu; auto).
        apply puts_keyed; [|apply A]. intros; apply Lu; auto. }
      split; cbn [x_prog x_found x_writes x_locks]; auto; try discriminate.
      * rewrite (Vis t _ _ H eq_refl). destruct (map_home sel f _ Hv Lu) as [_ ->]. exact Lc.
      * intros w Hw. apply in_app_or in Hw. destruct Hw as [Hw|Hw]; auto. apply in_map_iff in Hw. destruct Hw as (r & <- & Hr).
        apply filter_In in Hr. destruct Hr as [Hr E]. destruct (Lu r E) as (Ef & Lv). destruct (Lv (h_valid _ Hv r Hr)) as (M & Vr & Ed). assert (Dr := home_mine _ r Hv Hr M).
        split; cbn; auto. rewrite Ef, <- (h_dom _ Hv r Hr). auto.
      * intros k Hk. apply in_app_or in Hk. destruct Hk as [Hk|Hk]; auto. rewrite Ek in Hk. revert k Hk. apply Fk. intros; apply Lu; auto.
      * intros t' H' E'. rewrite !Vis by auto. destruct (Vw t' H' E') as (A & B & C).
        destruct (map_home sel f _ A Lu) as [A1 A2]. destruct (map_home sel f _ Hv Lu) as [B1 B2]. split; auto. rewrite A2, B2, B. split; auto.
    + intros E. injection E as <-. split; cbn [x_prog x_found x_writes x_locks]; auto; try (split; auto; fail).
      intros ks E. injection E as <-. reflexivity.
  - destruct L as [Lu Lc]. destruct fo as [ks|].
    + assert (Ek := Fo ks eq_refl).
      assert (Eh : filter (fun r => sel r && existsb (Nat.eqb (pk r)) ks) (visible pk t x) = filter sel (visible pk t x)) by (rewrite Ek; apply ConcNS.hit_eq).
      rewrite Eh. intros E. apply goes_go in E. subst x'.
      assert (Vis : forall t' ls' fo', home t' -> filter D t' = filter D t ->
        visible pk t' (mkTx c (ws ++ map Gone (filter sel (visible pk t x))) ls' fo') = filter (fun r => negb (sel r)) (visible pk t' x)).
      { intros t' ls' fo' H' E'. destruct (Vw t' H' E') as (A & B & _). rewrite (sees_same _ _ _ _ _ _ (Delete sel c) ls (Some ks)). fold x.
        rewrite (sel_dom sel _ Hv Lu), <- B, <- (sel_dom sel _ A Lu). apply (gone_sel R pk). apply A. }
      split; cbn [x_prog x_found x_writes x_locks]; auto; try discriminate.
      * rewrite (Vis t _ _ H eq_refl), filter_comm. exact Lc.
      * intros w Hw. apply in_app_or in Hw. destruct Hw as [Hw|Hw]; auto. apply in_map_iff in Hw. destruct Hw as (r & <- & Hr).
        apply filter_In in Hr. destruct Hr as [Hr E]. assert (Vr := h_valid _ Hv r Hr). assert (Dr := home_mine _ r Hv Hr (Lu r Vr E)).
        split; cbn; auto. rewrite <- (h_dom _ Hv r Hr). auto.
      * intros k Hk. apply in_app_or in Hk. destruct Hk as [Hk|Hk]; auto. rewrite Ek in Hk. revert k Hk. apply Fk. auto.
      * intros t' H' E'. rewrite !Vis by auto. destruct (Vw t' H' E') as (A & B & C).
        split; [apply filter_home; auto|]. rewrite !(filter_comm D), B. split; auto.
    + intros E. injection E as <-. split; cbn [x_prog x_found x_writes x_locks]; auto; try (split; auto; fail).
      intros ks E. injection E as <-. reflexivity.
  - destruct L as (Dr & Kr & Vr & Lu & Lc). destruct (existsb (same r) (visible pk t x)) eqn:Ex; [discriminate|].
    intros E. apply goes_go in E. subst x'.
    assert (Vis : forall t' ls' fo', visible pk t' (mkTx c (ws ++ [New r]) ls' fo') = r :: visible pk t' x).
    { intros. rewrite (sees_same _ _ _ _ _ _ (Insert r c) ls fo). reflexivity. }
    split; cbn [x_prog x_found x_writes x_locks]; auto; try discriminate.
    + rewrite Vis. cbn [filter]. rewrite Dr. apply Lc. rewrite <- (exists_dom _ _ Hv Lu). auto.
    + intros w Hw. apply in_app_or in Hw. destruct Hw as [Hw|[<-|[]]]; auto. split; auto.
    + intros t' H' E'. rewrite !Vis. destruct (Vw t' H' E') as (A & B & C).
      assert (Ex' : existsb (same r) (visible pk t' x) = false) by (rewrite (exists_dom _ _ A Lu), B, <- (exists_dom _ _ Hv Lu); auto).
      split; [apply home_cons; auto|]. cbn [filter]. rewrite Dr, B. split; auto. rewrite <- C. cbn [ConcAlone.alone]. rewrite Ex'. auto.
Qed.

Lemma calm_end e t x rows r : home t -> calm e t x -> solo t x = End rows r ->
  e t = match r with None => Ok rows | Some r => Err r end.
Proof.
  intros H [L Ws Ls Fo Vw]. destruct (Vw t H eq_refl) as (Hv & _ & C).
  unfold ConcModel.solo. cbv zeta. destruct x as [p ws ls fo]. cbn [x_prog x_found x_writes x_locks] in *.
  assert (G : forall q w l, goes t q w l = End rows r -> exists er, q = Raise er /\ r = Some er).
  { intros q w l. destruct q; cbn; try discriminate. intros E. injection E as _ <-. eauto. }
  destruct p as [|e0|k c|c|sel f c|sel c|r0 c].
  - intros E. injection E as <- <-. rewrite <- C. auto.
  - intros E. injection E as <- <-. rewrite <- C. auto.
  - intros E. apply G in E. destruct E as (er & Eq & ->). rewrite <- C. cbn [ConcAlone.alone]. rewrite Eq. auto.
  - intros E. apply G in E. destruct E as (er & Eq & ->). rewrite <- C. cbn [ConcAlone.alone]. rewrite Eq. auto.
  - destruct fo; [|discriminate]. intros E. apply G in E. destruct E as (er & Eq & ->). rewrite <- C. cbn [ConcAlone.alone]. rewrite Eq. auto.
  - destruct fo; [|discriminate]. intros E. apply G in E. destruct E as (er & Eq & ->). rewrite <- C. cbn [ConcAlone.alone]. rewrite Eq. auto.
  - destruct (existsb (same r0) (visible pk t (mkTx (Insert r0 c) ws ls fo))) eqn:Ex.
    + intros E. injection E as <- <-. rewrite <- C. cbn [ConcAlone.alone]. rewrite Ex. auto.
    + intros E. apply G in E. destruct E as (er & Eq & ->). rewrite <- C. cbn [ConcAlone.alone]. rewrite Ex, Eq. auto.
Qed.

(** A transaction alone keeps to its domain. *)
Lemma alone_home p t t' : local_at (filter D t) p -> home t -> alone t p = Ok t' -> home t'.
Proof.
  revert t. induction p as [|e|k c IH|c IH|sel f c IH|sel c IH|r c IH]; intros t L H E; cbn [ConcAlone.alone local_at] in E, L.
  - injection E as <-. auto.
  - discriminate.
  - destruct L as [Kk L]. rewrite <- key_dom in L by auto. eapply IH; eauto.
  - eapply IH; [exact (proj1 (L t H eq_refl))|exact H|exact E].
  - destruct L as [Lu Lc]. destruct (map_home sel f t H Lu) as [A B]. rewrite <- B in Lc. eapply IH; eauto.
  - destruct L as [Lu Lc]. rewrite filter_comm in Lc. eapply IH; [exact Lc| |exact E]. apply filter_home; auto.
  - destruct L as (Dr & Kr & Vr & Lu & Lc). destruct (existsb (same r) t) eqn:Ex; [discriminate|]. apply (IH (r :: t)); [|apply home_cons; auto|exact E].
    cbn [filter]. rewrite Dr. apply Lc. rewrite <- (exists_dom _ _ H Lu). auto.
Qed.
End Domain.

(** What a transaction of another domain does to a domain. *)
Section Two.
Variables D1 D2 : R -> bool.
Variables K1 K2 : nat -> bool.
Hypothesis DD : forall r, D1 r = true -> D2 r = false.
Hypothesis KK : forall k, K1 k = true -> K2 k = false.

Lemma alone_other p t t' : local_at D1 K1 (filter D1 t) p -> home D1 K1 t -> home D2 K2 t -> alone t p = Ok t' ->
  home D2 K2 t' /\ filter D2 t' = filter D2 t.
Proof.
  revert t. induction p as [|e|k c IH|c IH|sel f c IH|sel c IH|r c IH]; intros t L H1 H2 E; cbn [ConcAlone.alone local_at] in E, L.
  - injection E as <-. auto.
  - discriminate.
  - destruct L as [Kk L]. rewrite <- (key_dom D1 K1) in L by auto. eapply IH; eauto.
  - eapply IH; [exact (proj1 (L t H1 eq_refl))|exact H1|exact H2|exact E].
  - destruct L as [Lu Lc].
    destruct (map_home D1 K1 sel f t H1 Lu) as [H1' Em]. rewrite <- Em in Lc.
    assert (G : forall r, In r t -> sel r = true -> D2 r = false /\ D2 (f r) = false /\ pk (f r) = pk r /\ K2 (pk r) = false).
    { intros r Hr Es. destruct (Lu r Es) as (Ek & Lv). destruct (Lv (h_valid _ _ _ H1 r Hr)) as (M & _ & Ed). assert (Dr := home_mine _ _ _ r H1 Hr M). rewrite (h_dom _ _ _ H1 r Hr) in Dr.
      split; [apply DD; rewrite (h_dom _ _ _ H1 r Hr); auto|]. split; [apply DD, Ed; rewrite (h_dom _ _ _ H1 r Hr); auto|]. split; auto. }
    assert (H2' : home D2 K2 (map (fun r => if sel r then f r else r) t)).
    { split; [apply H1'| |apply H1']. intros r Hr. apply in_map_iff in Hr. destruct Hr as (a & <- & Ha). destruct (sel a) eqn:Es; [|apply H2; auto].
      destruct (G a Ha Es) as (_ & -> & -> & ->). auto. }
    destruct (IH _ Lc H1' H2' E) as [A B]. split; auto. rewrite B.
    clear - G. induction t as [|a t IH]; cbn; auto. rewrite IH by (intros; apply G; cbn; auto).
    destruct (sel a) eqn:Es; auto. destruct (G a (or_introl eq_refl) Es) as (-> & -> & _). auto.
  - destruct L as [Lu Lc]. rewrite filter_comm in Lc. destruct (IH _ Lc (filter_home _ _ _ _ H1) (filter_home _ _ _ _ H2) E) as [A B]. split; auto. rewrite B.
    assert (G : forall r, In r t -> sel r = true -> D2 r = false) by (intros r Hr Es; apply DD; eapply home_mine; eauto; apply Lu; auto; apply H1; auto).
    clear - G. induction t as [|a t IH]; cbn; auto. assert (IH' := IH (fun r Hr => G r (or_intror Hr))). specialize (G a (or_introl eq_refl)).
    destruct (sel a) eqn:Es; cbn; rewrite IH'; auto. rewrite G; auto.
  - destruct L as (Dr & Kr & Vr & Lu & Lc). destruct (existsb (same r) t) eqn:Ex; [discriminate|].
    assert (H1' : home D1 K1 (r :: t)) by (apply home_cons; auto).
    assert (H2' : home D2 K2 (r :: t)).
    { split; [apply H1'| |apply H1']. intros a [<-|Ha]; [rewrite DD, KK; auto|apply H2; auto]. }
    assert (L' : local_at D1 K1 (filter D1 (r :: t)) c) by (cbn [filter]; rewrite Dr; apply Lc; rewrite <- (exists_dom D1 K1 _ _ H1 Lu); auto).
    destruct (IH _ L' H1' H2' E) as [A B]. split; auto. rewrite B. cbn. rewrite DD; auto.
Qed.
End Two.

(** The rest of a transaction, when another one has committed. *)
Lemma calm_other D K e t t' x : home D K t -> home D K t' -> filter D t' = filter D t -> calm D K e t x -> calm D K e t' x.
Proof.
  intros H H' E [L Ws Ls Fo Vw]. destruct (Vw t' H' E) as (A & B & _). destruct (Vw t H eq_refl) as (Hv & _ & _).
  split; auto.
  - rewrite B. auto.
  - intros ks Ek. specialize (Fo ks Ek). destruct (x_prog x) as [| | | |sel f c|sel c|]; auto.
    + destruct L as [Lu _]. rewrite Fo, (sel_dom D K _ _ A), (sel_dom D K _ _ Hv), B by (intros; apply Lu; auto). auto.
    + destruct L as [Lu _]. rewrite Fo, (sel_dom D K _ _ A), (sel_dom D K _ _ Hv), B by auto. auto.
  - intros t2 H2 E2. rewrite E in E2. destruct (Vw t2 H2 E2) as (A2 & B2 & C2). split; auto. rewrite B. auto.
Qed.

(** Calls of different domains. *)
Variable call : Type.
Variable start : call -> prog R.
Variable D : call -> R -> bool.
Variable K : call -> nat -> bool.
Variable calls : list call.
(** The state of the table, and what a call needs of it. *)
Variable fine : list R -> Prop.
Variable ready : list R -> call -> Prop.
Hypothesis starts : forall t c, In c calls -> fine t -> ready t c -> home (D c) (K c) t -> local_at (D c) (K c) (filter (D c) t) (start c).

Definition apart (c d : call) : Prop :=
  (forall r, D c r = true -> D d r = false) /\ (forall k, K c k = true -> K d k = false).
Hypothesis all_apart : forall i j c d, i <> j -> nth_error calls i = Some c -> nth_error calls j = Some d -> apart c d.

Hypothesis stays_fine : forall t c t', In c calls -> fine t -> ready t c -> alone t (start c) = Ok t' -> fine t'.
Hypothesis stays_ready : forall t c d t', In c calls -> In d calls -> fine t -> ready t c -> ready t d -> apart c d -> alone t (start c) = Ok t' -> ready t' d.

Definition at_home (t : list R) : Prop := fine t /\ forall c, In c calls -> home (D c) (K c) t.
Definition lexec (t : list R) (c : call) : res (list R) := alone t (start c).
Definition lcalm (t : list R) (c : call) (x : tx R) : Prop := (In c calls /\ ready t c) /\ calm (D c) (K c) (fun t => lexec t c) t x.

Lemma apart_sym c d : apart c d -> apart d c.
Proof.
  intros [A B]. split.
  - intros r E. apply not_true_iff_false. intros E'. rewrite (A r E') in E. discriminate.
  - intros k E. apply not_true_iff_false. intros E'. rewrite (B k E') in E. discriminate.
Qed.

Lemma local_undisturbed : undisturbed R pk same call start lexec at_home apart lcalm (fun t c => In c calls /\ ready t c).
Proof.
  split.
  - intros t c [Hf H] [Hc Rc]. split; auto. apply calm_begin; auto.
  - intros t c x x' [Hf H] [[Hc Rc] C] E. split; auto. eapply calm_go; eauto.
  - intros t c x rows e [Hf H] [[Hc Rc] C] E. exact (calm_end (D c) (K c) _ t x rows e (H c Hc) C E).
  - intros t c x t' [Hf H] [[Hc Rc] _] E. split; [eapply stays_fine; eauto|]. intros d Hd. destruct (In_nth_error _ _ Hc) as [i Ei]. destruct (In_nth_error _ _ Hd) as [j Ej].
    destruct (Nat.eq_dec i j) as [->|N].
    + assert (c = d) as <- by congruence. apply (alone_home (D c) (K c) (start c) t); auto.
    + destruct (all_apart i j c d N Ei Ej) as [A B]. apply (alone_other (D c) (D d) (K c) (K d) A B (start c) t); auto.
  - intros t c d x y rows [Hf H] A [[Hc Rc] C] [[Hd Rd] C'] _ E.
    apply apart_sym in A. destruct A as [A B].
    assert (E' := calm_end _ _ _ _ _ _ _ (H d Hd) C' E). cbn in E'.
    destruct (alone_other (D d) (D c) (K d) (K c) A B (start d) t rows) as [H' F']; auto.
    split; [|eapply (calm_other _ _ _ t); eauto]. split; auto. apply (stays_ready t d c); auto. split; auto.
Qed.

Lemma local_waits t c d x y : at_home t -> apart c d -> lcalm t c x -> lcalm t d y -> waits same x y = true -> x_prog y = Commit.
Proof.
  intros [Hf H] [A B] [[Hc _] [L Ws Ls Fo Vw]] [[Hd _] [L' Ws' Ls' Fo' V']] E. exfalso.
  destruct (Vw t (H c Hc) eq_refl) as (Hv & _ & _).
  assert (Fk : forall sel, (forall r, V r -> sel r = true -> mine (D c) (K c) r) ->
    existsb (fun k => existsb (Nat.eqb k) (x_locks y)) (map pk (filter sel (visible pk t x))) = true -> False).
  { intros sel M Ex. apply existsb_exists in Ex. destruct Ex as (k & Hk & Ex). apply existsb_exists in Ex. destruct Ex as (k' & Hk' & Ek).
    apply Nat.eqb_eq in Ek. subst k'. apply in_map_iff in Hk. destruct Hk as (r & <- & Hr). apply filter_In in Hr. destruct Hr as [Hr Es].
    assert (Dr := home_mine _ _ _ r Hv Hr (M r (h_valid _ _ _ Hv r Hr) Es)). rewrite (h_dom _ _ _ Hv r Hr) in Dr. apply B in Dr. rewrite (Ls' _ Hk') in Dr. discriminate. }
  unfold waits in E. destruct (x_prog x) as [|e0|k c0|c0|sel f c0|sel c0|r c0]; try discriminate.
  - destruct L as [Kk _]. apply existsb_exists in E. destruct E as (k' & Hk & E). apply Nat.eqb_eq in E. subst k'.
    apply B in Kk. rewrite (Ls' _ Hk) in Kk. discriminate.
  - destruct (x_found x) as [ks|]; [|discriminate]. specialize (Fo ks eq_refl). cbn in Fo. subst ks.
    eapply (Fk sel); [|exact E]. intros. apply L; auto.
  - destruct (x_found x) as [ks|]; [|discriminate]. specialize (Fo ks eq_refl). cbn in Fo. subst ks.
    eapply (Fk sel); [|exact E]. apply L.
  - destruct L as (_ & _ & _ & M & _). apply existsb_exists in E. destruct E as (w & Hw & E). destruct (Ws' w Hw) as (Dw & Kw & Vw').
    destruct (M _ Vw' E) as [X|X]; [apply A in X|apply B in X]; congruence.
Qed.

Theorem local_serial t schedule : at_home t -> (forall c, In c calls -> ready t c) ->
  let W := play pk same (all_begin t (map start calls)) schedule in
  one_by_one lexec calls t (map fst (w_log W)) = (w_rows W, w_log W) /\ NoDup (map fst (w_log W)) /\
  (finished W = true -> Permutation (map fst (w_log W)) (seq 0 (length calls))) /\
  exists schedule', finished (play pk same W schedule') = true.
Proof.
  intros H Rd W.
  destruct (locked_serial _ _ _ _ _ _ _ _ _ _ local_undisturbed calls t all_apart H (fun c h => conj h (Rd c h)) schedule) as (H1 & _ & H3 & H4).
  split; [exact H1|]. split; [exact H3|]. split; [exact H4|].
  exact (locked_finish _ _ _ _ _ _ _ _ _ _ local_undisturbed calls t all_apart H (fun c h => conj h (Rd c h)) local_waits schedule).
Qed.
End Local.
