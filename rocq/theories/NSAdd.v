(** Adding nodes to nested set trees. *)
From Coq Require Import String List Arith ZArith Lia Bool Permutation Sorted.
From Verif Require Import Prelude Forest SpecFacts CommonModel Order History NSModel NSInv NSReads NSUpd.
Import ListNotations.
Local Open Scope Z_scope.

(** ** Inserting a leaf *)
Lemma Ctx_add up m1 m2 x F F' : Ctx up (fapp m1 m2) (fapp m1 (Cons x Nil m2)) F F' -> wf_ids F ->
  ~ In (nid x) (ids F) -> wf_ids F' /\ Permutation (ids F') (nid x :: ids F).
Proof.
  intros C W Fr. assert (P : Permutation (ids (fapp m1 (Cons x Nil m2))) (nid x :: ids (fapp m1 m2))).
  { rewrite !ids_fapp, ids_cons. cbn. symmetry. apply Permutation_middle. }
  assert (W' : wf_ids (fapp m1 (Cons x Nil m2))).
  { unfold wf_ids. rewrite P. constructor; [|apply (Ctx_wf_l C W)]. intros H. apply Fr. eapply Ctx_incl; eauto. }
  split.
  - apply (Ctx_wf C W W'). intros y Hy. apply (Permutation_in _ P) in Hy. destruct Hy as [<-|Hy]; auto.
  - destruct (Ctx_ids C) as (R & P1 & P2). rewrite P1, P2, P. symmetry. apply Permutation_middle.
Qed.

Lemma save_new db r : ~ In (n_pk r) (map n_pk (ns_rows db)) -> save_row db r = mkNSDB (r :: ns_rows db) (ns_sigs db).
Proof.
  intros H. unfold save_row. replace (existsb _ (ns_rows db)) with false; auto.
  symmetry. apply existsb_false. intros x Hx. apply Nat.eqb_neq. intros E. apply H. rewrite <- E. apply in_map. auto.
Qed.

Lemma insert_ok db F p m1 m2 x F' xr newpos :
  stores (ns_rows db) F -> Ctx (Some p) (fapp m1 m2) (fapp m1 (Cons x Nil m2)) F F' -> ~ In (nid x) (ids F) ->
  In xr (ns_rows db) -> n_pk xr = p -> newpos = n_lft xr + 1 + 2 * Z.of_nat (size m1) ->
  let r := mkNS (nid x) (n_tree xr) newpos (newpos + 1) (n_depth xr + 1) (ndata x) in
  let db' := save_row (alter_gap db (n_tree xr) newpos 2) r in
  stores (ns_rows db') F' /\ In r (ns_rows db').
Proof.
  intros St C Fr Hx Ex En r db'. apply stores_iff in St. destruct St as (W & ts & I & La & Pk).
  destruct (Ctx_add _ _ _ _ _ _ C W Fr) as [W' Pi].
  assert (Es : db' = mkNSDB (r :: ns_rows (alter_gap db (n_tree xr) newpos 2))
                            (ns_sigs (alter_gap db (n_tree xr) newpos 2))).
  { apply save_new. rewrite alter_gap_pks. cbn [n_pk r]. intros H. apply Fr. apply (Permutation_in _ Pk). auto. }
  rewrite Es. cbn [ns_rows]. split; [|simpl; auto]. apply stores_iff. split; auto. exists ts.
  assert (I' : ids_ok ts F').
  { destruct I as (I1 & I2). split; auto. rewrite <- (Ctx_roots _ _ _ _ _ C). auto. }
  split; auto.
  destruct (spread_ctx _ _ _ _ _ C ts ltac:(apply I) ltac:(apply sorted_NoDup, I)) as (T & A & b & B & HT & Eb & E1 & E2 & E3).
  subst p. rewrite <- Eb in *. destruct (place_par _ F ts W La xr T A b _ B Hx ltac:(auto) E1) as (P1 & P2 & P3 & P4 & P5).
  rewrite toks_fapp, map_app in E1. rewrite toks_fapp, map_app in E2. cbn [toks map] in E2.
  set (A' := A ++ Some (TO b) :: cells m1). set (B' := cells m2 ++ Some (TC (nid b)) :: B).
  assert (LA : len A' = newpos - 1).
  { unfold A'. rewrite app_length. cbn [length]. rewrite map_length, toks_len. lia. }
  assert (BA : bal A' = n_depth xr).
  { unfold A'. rewrite bal_app. cbn [bal]. rewrite bal_toks. lia. }
  assert (E1' : spread ts F T = A' ++ B').
  { rewrite E1. unfold A', B'. rewrite <- !app_assoc. cbn [app]. rewrite <- ?app_assoc. auto. }
  split.
  - assert (G := open_laid db _ T A' B' 2 La E1'). rewrite LA in G.
    replace (newpos - 1 + 1) with newpos in G by lia. change (Z.of_nat 2) with 2 in G.
    assert (G2 := fill_laid _ _ T A' B' x G ltac:(apply upd_same)). rewrite LA, BA in G2.
    replace (newpos - 1 + 1) with newpos in G2 by lia. replace (newpos - 1 + 2) with (newpos + 1) in G2 by lia.
    unfold r. rewrite P1. replace (n_depth xr + 1) with (1 + n_depth xr) by lia.
    eapply laid_ext; [|exact G2]. intros U. unfold upd. destruct (Z.eqb_spec U T) as [->|N].
    + rewrite E2. unfold A', B'. cbn [leaf toks map app]. rewrite <- !app_assoc. cbn [app]. rewrite <- ?app_assoc. auto.
    + symmetry. auto.
  - cbn [map n_pk r]. rewrite alter_gap_pks, Pk. symmetry. auto.
Qed.

Lemma tree_head ts F U : length ts = length (roots F) -> In U ts -> exists h, In h (heads ts F) /\ n_tree h = U.
Proof.
  revert ts. induction F as [|a k _ s IH]; intros [|T ts] E; try discriminate; intros [].
  - subst T. eexists. split; [cbn [heads]; left; reflexivity|auto].
  - destruct (IH ts) as (h & Hh & Eh); auto. exists h. split; auto. cbn [heads]. right. auto.
Qed.

(** A new last root. *)
Lemma last_root_ok db F x T :
  stores (ns_rows db) F -> ~ In (nid x) (ids F) -> 1 <= T -> (forall r, In r (ns_rows db) -> n_tree r < T) ->
  let r := mkNS (nid x) T 1 2 1 (ndata x) in
  stores (ns_rows (save_row db r)) (fapp F (leaf x)) /\ In r (ns_rows (save_row db r)).
Proof.
  intros (W & ts & I & P) Fr HT Lt r.
  rewrite save_new; [|cbn [n_pk r]; intros H; apply Fr; apply (Permutation_in _ (pks _ F ts I P)); auto].
  cbn [ns_rows]. split; [|simpl; auto].
  assert (C := Ctx_top (fapp F Nil) (fapp F (Cons x Nil Nil))). rewrite fapp_nil_r in C at 2.
  destruct (Ctx_add _ _ _ _ _ _ C W Fr) as [W' _]. split; [exact W'|].
  destruct I as (I1 & I2 & I3). exists (ts ++ [T]). split; [split; [|split]|].
  - rewrite roots_fapp, !app_length, I1. auto.
  - assert (Hts : forall U, In U ts -> U < T).
    { intros U HU. destruct (tree_head ts F U I1 HU) as (h & Hh & <-). apply Lt.
      apply (heads_in _ F ts P). auto. }
    clear - I2 Hts. induction ts as [|U ts IH]; cbn [app]; [repeat constructor|].
    inversion I2; subst. constructor.
    + apply IH; auto. intros; apply Hts; simpl; auto.
    + apply Forall_app. split; auto. constructor; auto. apply Hts; simpl; auto.
  - apply Forall_app. split; auto.
  - rewrite layout_fapp by auto. cbn [layout number app]. rewrite P. cbn [size]. 
    apply Permutation_cons_append.
Qed.

(** A new root in front of the trees from [T] on. *)
Lemma mid_root_ok db F ts u1 u2 m1 m2 x T :
  wf_ids F -> ids_ok ts F -> Permutation (ns_rows db) (layout ts F) ->
  F = fapp m1 m2 -> ts = u1 ++ u2 -> length u1 = length (roots m1) ->
  ~ In (nid x) (ids F) -> 1 <= T -> (forall U, In U u1 -> U < T) -> (forall U, In U u2 -> T <= U) ->
  let r := mkNS (nid x) T 1 2 1 (ndata x) in
  let db' := save_row (move_tree_right db T) r in
  stores (ns_rows db') (fapp m1 (Cons x Nil m2)) /\ In r (ns_rows db').
Proof.
  intros W I P EF Et E Fr HT H1 H2 r db'.
  assert (Pk := pks _ F ts I P). apply layout_iff in P; auto. destruct P as [La _].
  assert (Es : db' = mkNSDB (r :: ns_rows (move_tree_right db T)) (ns_sigs (move_tree_right db T))).
  { apply save_new. rewrite shift_pks. cbn [n_pk r]. intros H. apply Fr. apply (Permutation_in _ Pk). auto. }
  rewrite Es. cbn [ns_rows]. split; [|simpl; auto]. apply stores_iff.
  assert (C := Ctx_top (fapp m1 m2) (fapp m1 (Cons x Nil m2))). subst F.
  destruct (Ctx_add _ _ _ _ _ _ C W Fr) as [W' Pi]. split; auto.
  exists (u1 ++ T :: map (Z.add 1) u2). subst ts. split; [apply ids_ok_new_tree; auto|]. split.
  - assert (G := shift_laid db _ T La). fold (shifted (spread (u1 ++ u2) (fapp m1 m2)) T) in G.
    assert (G1 := free_laid _ _ T (holes 2) G). assert (Gs := G1 ltac:(unfold shifted; rewrite Z.ltb_irrefl, Z.eqb_refl; auto)).
    assert (G2 := fill_laid _ _ T [] [] x Gs ltac:(apply upd_same)). cbn [length bal app] in G2.
    change (Z.of_nat 0 + 1) with 1 in G2. change (Z.of_nat 0 + 2) with 2 in G2. change (1 + 0) with 1 in G2.
    eapply laid_ext; [|exact G2]. intros U. rewrite (spread_new_tree u1 u2 m1 m2 T x Nil) by auto.
    unfold upd. destruct (U =? T); auto.
  - cbn [map n_pk r]. rewrite shift_pks, Pk. symmetry. auto.
Qed.

(** ** Choosing the place *)

(** The object's row is in the table and a cached parent is up to date. *)
Definition good_obj (t : ns_table) (o : nsobj) : Prop :=
  In (o_row o) t /\ forall y, o_up o = Some y -> query_parent t (o_row o) = Ok y.

Lemma good_fresh t r : In r t -> good_obj t (fresh r).
Proof. intros H. split; auto. discriminate. Qed.

(** add_sibling and move pass the position through these steps. *)
Definition place_target (o : ordering) (t : ns_table) (p : pos) (d : fields) (target : nsobj) : res (pos * nsobj) :=
  do '(p, target) <-
    match p with
    | SortedSibling => do sibs <- get_siblings t (o_row target); Ok (sorted_target o sibs d target)
    | _ => Ok (p, target)
    end;
  normalize t p target.

(** The normalized position and target stand for the place between [m1] and [m2]. *)
Definition spot (tg : nsobj) (p' : pos) (tg' : nsobj) (m1 m2 : forest node) : Prop :=
  (p' = LastSibling /\ m2 = Nil /\ o_row tg' = o_row tg /\ (tg' = tg \/ o_up tg' = None)) \/
  ((p' = FirstSibling /\ m1 = Nil \/ p' = Left) /\ (tg' = tg \/ o_up tg' = None) /\
   exists b kb m2', m2 = Cons b kb m2' /\ row_node (o_row tg') = b).

Section Spot.
Variable o : ordering.
Variable t : ns_table.
Variable L : ns_table.
Variable l : forest node.
Hypothesis ND : NoDup (map n_pk L).
Hypothesis EL : map row_node L = roots l.
Hypothesis Hsib : forall s, In s L -> get_siblings t s = Ok L.

Lemma split_l L1 L2 : L = L1 ++ L2 -> exists m1 m2, l = fapp m1 m2 /\
  roots m1 = map row_node L1 /\ roots m2 = map row_node L2.
Proof. intros ->. rewrite map_app in EL. apply roots_app_split. auto. Qed.

Lemma cons_forest (m : forest node) r R : roots m = row_node r :: R -> exists kb m', m = Cons (row_node r) kb m'.
Proof. destruct m; [discriminate|]. cbn [roots]. intros E. injection E as -> _. eauto. Qed.

Lemma same_hd L1 r L2 : L = L1 ++ r :: L2 -> (same_pk r (hd_error L) = true <-> L1 = []).
Proof.
  intros E. rewrite E in ND |- *. destruct L1 as [|h L1]; cbn [app hd_error same_pk].
  - rewrite Nat.eqb_refl. tauto.
  - rewrite Nat.eqb_eq. split; [|discriminate]. intros Eh. exfalso. cbn [app map] in ND. apply NoDup_cons_iff in ND.
    destruct ND as [N _]. apply N. rewrite <- Eh. apply in_map, in_app_iff. simpl. auto.
Qed.

Lemma same_last L1 r L2 : L = L1 ++ r :: L2 -> (same_pk r (last_opt L) = true <-> L2 = []).
Proof.
  intros E. destruct (last_opt L2) as [y|] eqn:Ey.
  - apply last_opt_Some in Ey. destruct Ey as [L2' ->].
    assert (E' : L = (L1 ++ r :: L2') ++ [y]) by (rewrite E, <- app_assoc; auto). rewrite E', last_opt_app.
    cbn [same_pk]. rewrite Nat.eqb_eq. split; [|destruct L2'; discriminate].
    intros Eh. exfalso. rewrite E', map_app in ND. apply NoDup_app_iff in ND. destruct ND as (_ & _ & N).
    apply (N (n_pk y)); [|simpl; auto]. rewrite <- Eh. apply in_map, in_app_iff. simpl. auto.
  - apply last_opt_None in Ey. subst L2. rewrite E, last_opt_app. cbn [same_pk]. rewrite Nat.eqb_refl. tauto.
Qed.

Lemma after_target_hd L1 r L2 : L = L1 ++ r :: L2 -> after_target r L = hd_error L2.
Proof.
  intros E. rewrite E in ND |- *. clear E EL Hsib. induction L1 as [|y L1 IH]; cbn [app after_target].
  - rewrite Nat.eqb_refl. auto.
  - cbn [app map] in ND. apply NoDup_cons_iff in ND. destruct ND as [N1 N2].
    destruct (Nat.eqb_spec (n_pk y) (n_pk r)) as [Ey|_]; auto. exfalso. apply N1. rewrite Ey.
    apply in_map, in_app_iff. simpl. auto.
Qed.

Lemma place_before tg L1 L2 : L = L1 ++ o_row tg :: L2 ->
  exists p' tg' m1 m2, normalize t Left tg = Ok (p', tg') /\ l = fapp m1 m2 /\
    roots m1 = map row_node L1 /\ roots m2 = row_node (o_row tg) :: map row_node L2 /\
    In (o_row tg') L /\ spot tg p' tg' m1 m2.
Proof.
  intros E. assert (Hr : In (o_row tg) L) by (rewrite E; apply in_app_iff; simpl; auto).
  destruct (split_l L1 (o_row tg :: L2) E) as (m1 & m2 & El & R1 & R2). cbn [map] in R2.
  destruct (cons_forest _ _ _ R2) as (kb & m2' & Em2).
  unfold normalize. rewrite (Hsib _ Hr). cbn [bind].
  assert (S := same_hd _ _ _ E). destruct (same_pk (o_row tg) (hd_error L)).
  - assert (L1 = []) by (apply S; auto). subst L1. assert (Eh : hd_error L = Some (o_row tg)) by (rewrite E; auto).
    rewrite Eh. exists FirstSibling, (fresh (o_row tg)), m1, m2. split; auto. split; auto. split; auto. split; auto.
    split; auto. right. split; [left; split; auto|split; [right; auto|eauto]].
    destruct m1; [auto|discriminate].
  - exists Left, tg, m1, m2. split; auto. split; auto. split; auto. split; auto. split; auto.
    right. split; auto. split; auto. eauto.
Qed.

Lemma place_ok P d tg : In (o_row tg) L -> is_sib_pos P ->
  exists p' tg' m1 m2, place_target o t P d tg = Ok (p', tg') /\ l = fapp m1 m2 /\
    ins_split (sib_place P (n_pk (o_row tg)) (fun n => sorted_after o d (ndata n))) (roots m1) (roots m2) /\
    In (o_row tg') L /\ spot tg p' tg' m1 m2.
Proof.
  intros Hr HP. assert (Hs := in_split _ _ Hr). destruct Hs as (L1 & L2 & E).
  unfold place_target. destruct P; try (destruct HP; fail); cbn [bind sib_place].
  - unfold normalize. rewrite (Hsib _ Hr). cbn [bind].
    assert (exists h L', L = h :: L') as (h & L' & E0) by (rewrite E; destruct L1; simpl; eauto).
    assert (Eh : hd_error L = Some h) by (rewrite E0; auto). rewrite Eh. destruct (split_l [] (h :: L') E0) as (m1 & m2 & El & R1 & R2). cbn [map] in R1, R2.
    destruct (cons_forest _ _ _ R2) as (kb & m2' & Em2). assert (m1 = Nil) by (destruct m1; [auto|discriminate]).
    exists FirstSibling, (fresh h), m1, m2. split; auto. split; auto.
    split; [subst m1; cbn [ins_split roots]; auto|]. split; [rewrite E0; simpl; auto|]. right. split; auto. split; [right; auto|]. eauto.
  - destruct (place_before tg L1 L2 E) as (p' & tg' & m1 & m2 & E1 & El & R1 & R2 & Hin & Sp).
    exists p', tg', m1, m2. split; auto. split; auto. split; [|auto]. cbn [ins_split]. split; [|rewrite R2; eauto].
    rewrite R1. intros x Hx Ex. apply in_map_iff in Hx. destruct Hx as (y & <- & Hy).
    rewrite E, map_app in ND. apply NoDup_app_iff in ND. destruct ND as (_ & _ & N).
    apply (N (n_pk y)); [apply in_map; auto|]. simpl. left. auto.
  - (* right *)
    assert (Pl : forall m1 m2, roots m1 = map row_node (L1 ++ [o_row tg]) ->
              ins_split (PAfter (n_pk (o_row tg))) (roots m1) (roots m2)).
    { intros m1 m2 R1. cbn [ins_split]. rewrite R1, map_app. cbn [map]. exists (map row_node L1), (row_node (o_row tg)).
      split; auto. split; auto. intros x Hx Ex. apply in_map_iff in Hx. destruct Hx as (y & <- & Hy).
      rewrite E, map_app in ND. apply NoDup_app_iff in ND. destruct ND as (_ & _ & N).
      apply (N (n_pk y)); [apply in_map; auto|]. simpl. left. auto. }
    assert (E' : L = (L1 ++ [o_row tg]) ++ L2) by (rewrite E, <- app_assoc; auto).
    destruct (split_l _ _ E') as (m1 & m2 & El & R1 & R2).
    unfold normalize. rewrite (Hsib _ Hr). cbn [bind].
    assert (S := same_last _ _ _ E). destruct (same_pk (o_row tg) (last_opt L)).
    + assert (L2 = []) by (apply S; auto). subst L2. exists LastSibling, (fresh (o_row tg)), m1, m2.
      split; auto. split; auto. split; auto. split; auto. left. split; auto. split; [destruct m2; [auto|discriminate]|auto].
    + rewrite (after_target_hd _ _ _ E). destruct L2 as [|s L2].
      { assert (false = true) by (apply S; auto). discriminate. }
      cbn [hd_error]. assert (Hh : same_pk (o_row (fresh s)) (hd_error L) = false).
      { destruct (same_pk (o_row (fresh s)) (hd_error L)) eqn:Eh; auto. exfalso.
        assert (E'' : L = (L1 ++ [o_row tg]) ++ s :: L2) by auto.
        apply (same_hd _ _ _ E'') in Eh. destruct L1; discriminate. }
      rewrite Hh. exists Left, (fresh s), m1, m2. split; auto. split; auto. split; auto.
      split; [rewrite E; apply in_app_iff; simpl; auto|]. right. split; auto. split; [right; auto|].
      cbn [map] in R2. destruct (cons_forest _ _ _ R2) as (kb & m2' & Em2). eauto.
  - destruct (split_l L [] ltac:(rewrite app_nil_r; auto)) as (m1 & m2 & El & R1 & R2).
    assert (m2 = Nil) by (destruct m2; [auto|discriminate]).
    exists LastSibling, tg, m1, m2. split; auto. split; auto. split; [cbn [ins_split]; auto|]. split; auto.
    left. auto.
  - (* sorted *)
    rewrite (Hsib _ Hr). cbn [bind]. unfold sorted_target.
    destruct (filter (fun r => sorted_after o d (n_data r)) L) as [|s M] eqn:Ef.
    + destruct (split_l L [] ltac:(rewrite app_nil_r; auto)) as (m1 & m2 & El & R1 & R2).
      assert (m2 = Nil) by (destruct m2; [auto|discriminate]).
      exists LastSibling, (fresh (o_row tg)), m1, m2. split; auto. split; auto. split.
      * cbn [ins_split]. split; [|rewrite R2; discriminate]. rewrite R1. intros x Hx. apply in_map_iff in Hx.
        destruct Hx as (y & <- & Hy). cbn [row_node ndata]. destruct (sorted_after o d (n_data y)) eqn:Es; auto.
        assert (Hin : In y (filter (fun r => sorted_after o d (n_data r)) L)) by (apply filter_In; auto).
        rewrite Ef in Hin. destruct Hin.
      * split; auto. left. auto.
    + assert (exists K1 K2, L = K1 ++ s :: K2 /\ forall y, In y K1 -> sorted_after o d (n_data y) = false) as (K1 & K2 & EK & HK).
      { clear - Ef. revert Ef. generalize L. induction L0 as [|y L0 IH]; cbn [filter]; [discriminate|].
        destruct (sorted_after o d (n_data y)) eqn:Ey.
        - intros E. injection E as -> _. exists [], L0. split; auto. intros ? [].
        - intros E. destruct (IH E) as (K1 & K2 & -> & H). exists (y :: K1), K2. split; auto.
          intros z [<-|Hz]; auto. }
      destruct (place_before (fresh s) K1 K2 EK) as (p' & tg' & m1 & m2 & E1 & El & R1 & R2 & Hin & Sp).
      exists p', tg', m1, m2. split; auto. split; auto. split; [|split; [auto|]].
      * cbn [ins_split]. split.
        -- rewrite R1. intros x Hx. apply in_map_iff in Hx. destruct Hx as (y & <- & Hy). cbn [row_node ndata]. auto.
        -- rewrite R2. intros a R Ea. injection Ea as <- _. cbn [row_node ndata fresh o_row].
           assert (Hs : In s (filter (fun r => sorted_after o d (n_data r)) L)) by (rewrite Ef; simpl; auto).
           apply filter_In in Hs. tauto.
      * unfold spot in *. destruct Sp as [(-> & -> & Sp)|(Sp1 & Sp2 & Sp3)].
        -- exfalso. discriminate R2.
        -- right. split; auto. split; auto. right. destruct Sp2 as [->|Sp2]; auto.
Qed.
End Spot.

(** ** The theorems *)
Lemma siblings_all t F ts r L : wf_ids F -> ids_ok ts F -> Permutation t (layout ts F) ->
  In r t -> get_siblings t r = Ok L -> forall s, In s L -> get_siblings t s = Ok L.
Proof.
  intros W I P Hr E s Hs.
  destruct (sibs_row t F ts W I P r Hr) as (up & l1 & a & k & l2 & Ea & C & U).
  destruct (siblings_list t F ts W I P r Hr) as (L' & L1 & L2 & E' & _ & M & HL). rewrite E in E'. injection E' as <-.
  assert (Hst := HL s Hs).
  destruct (sibs_row t F ts W I P s Hst) as (up' & l1' & a' & k' & l2' & Ea' & C' & U').
  destruct (up_row_ctx F W _ _ _ _ _ _ Ea C) as (X1 & X2 & X3).
  destruct (up_row_ctx F W _ _ _ _ _ _ Ea' C') as (Y1 & Y2 & Y3).
  assert (up' = up).
  { destruct (C Nil) as [F' CF]. assert (Z : parent_of (n_pk s) F = Some up); [|congruence].
    eapply Ctx_parent_of; [exact CF|exact W|]. apply (in_map row_node) in Hs. rewrite M, X3 in Hs.
    rewrite roots_fapp. apply (in_map nid) in Hs. auto. }
  subst up'. rewrite X2 in Y2. injection Y2 as Y2.
  rewrite (get_siblings_row t F ts W I P _ _ _ _ _ _ U) in E. injection E as <-.
  rewrite (get_siblings_row t F ts W I P _ _ _ _ _ _ U'). destruct up as [p|]; auto.
  cbn [up_row] in U, U'. destruct U as (x & P1 & P2 & Hx & Ex & _ & _ & -> & _).
  destruct U' as (x' & P1' & P2' & Hx' & Ex' & _ & _ & -> & _).
  assert (x = x') by (apply (row_eq t F ts W I P); congruence). subst x'. rewrite Y2. auto.
Qed.

Lemma map_pk_NoDup L : NoDup (map nid (map row_node L)) -> NoDup (map n_pk L).
Proof. rewrite map_map. auto. Qed.

(** The new lft at a spot below [x]. *)
Lemma spot_newpos t F ts x l P1 P2 tg p' tg' m1 m2 :
  wf_ids F -> ids_ok ts F -> Permutation t (layout ts F) -> In x t -> around (layout ts F) x l P1 P2 ->
  l = fapp m1 m2 -> spot tg p' tg' m1 m2 ->
  In (o_row tg') (tops (n_tree x) (n_depth x + 1) (n_lft x + 1) l) ->
  good_obj t tg -> query_parent t (o_row tg) = Ok x -> is_root (o_row tg) = false ->
  n_tree (o_row tg') = n_tree x /\ n_depth (o_row tg') = n_depth x + 1 /\
  match p' with
  | LastSibling => parent_rgt t tg'
  | FirstSibling | Left => Ok (n_lft (o_row tg'))
  | _ => Err KeyError
  end = Ok (n_lft x + 1 + 2 * Z.of_nat (size m1)).
Proof.
  intros W I P Hx A El Sp Hin [G1 G2] Q R.
  destruct (tops_tree _ _ _ _ _ Hin) as [T1 T2]. split; auto. split; auto.
  destruct Sp as [(-> & -> & Er & Eu)|(Hp & Eu & b & kb & m2' & -> & Eb)].
  - unfold parent_rgt. assert (Hg : get_parent t tg' = Ok (Some x)).
    { unfold get_parent. rewrite Er, R. destruct Eu as [->| ->]; [|rewrite Q; auto].
      destruct (o_up tg) as [y|] eqn:Ey; [|rewrite Q; auto]. rewrite (G2 y eq_refl) in Q. injection Q as ->. auto. }
    rewrite Hg. cbn [bind]. assert (Z := rgt_size _ _ _ _ _ _ A). rewrite Z, El, fapp_nil_r. f_equal. lia.
  - assert (Hl : n_lft (o_row tg') = n_lft x + 1 + 2 * Z.of_nat (size m1)).
    { assert (H0 : In (o_row tg') t).
      { apply tops_in in Hin. apply (around_in t F ts P _ _ _ _ _ A Hin). }
      set (r0 := mkNS (nid b) (n_tree x) (n_lft x + 1 + 2 * Z.of_nat (size m1))
                   (n_lft x + 1 + 2 * Z.of_nat (size m1) + 2 * Z.of_nat (size kb) + 1) (n_depth x + 1) (ndata b)).
      assert (Hr0 : In r0 (tops (n_tree x) (n_depth x + 1) (n_lft x + 1) l)).
      { rewrite El, tops_fapp. apply in_app_iff. right. cbn [tops]. left. auto. }
      apply tops_in in Hr0. apply (around_in t F ts P _ _ _ _ _ A) in Hr0.
      assert (Z0 : o_row tg' = r0); [|rewrite Z0; reflexivity]. apply (row_eq t F ts W I P); auto.
      cbn [r0 n_pk]. rewrite <- Eb. auto. }
    destruct Hp as [[-> _]| ->]; rewrite Hl; auto.
Qed.

(** *** Roots *)
Lemma heads_trees ts F : length ts = length (roots F) -> map n_tree (heads ts F) = ts.
Proof.
  revert ts. induction F as [|a k _ r IH]; intros [|T ts] E; try discriminate; auto.
  cbn [heads map n_tree]. rewrite IH; auto.
Qed.

Lemma sorted_mid (u1 : list Z) T u2 : StronglySorted Z.lt (u1 ++ T :: u2) ->
  (forall U, In U u1 -> U < T) /\ (forall U, In U u2 -> T < U).
Proof.
  induction u1 as [|U u1 IH]; cbn [app]; intros S; inversion S; subst.
  - split; [intros ? []|]. rewrite Forall_forall in *. auto.
  - destruct (IH H1) as [Ha Hb]. split; auto. intros V [<-|HV]; auto.
    rewrite Forall_forall in H2. apply H2. apply in_app_iff. simpl. auto.
Qed.

Lemma layout_in_ts ts F r : In r (layout ts F) -> In (n_tree r) ts.
Proof. apply layout_tree. Qed.

Definition root_rest (db : ns_db) (p : pos) (tg : nsrow) (x : node) : res (ns_db * nsrow) :=
  let last_root := get_last_root_node (ns_rows db) in
  if match p with LastSibling => true | Right => same_pk tg last_root | _ => false end
  then
    match last_root with
    | None => Err AttributeError
    | Some lr => let r := mkNS (nid x) (n_tree lr + 1) 1 2 1 (ndata x) in Ok (save_row db r, r)
    end
  else
    match (match p with
           | FirstSibling => Some 1
           | Left => Some (n_tree tg)
           | Right => Some (n_tree tg + 1)
           | _ => None
           end) with
    | None => Err KeyError
    | Some newpos =>
        let r := mkNS (nid x) newpos 1 2 1 (ndata x) in
        Ok (save_row (move_tree_right db newpos) r, r)
    end.

Lemma root_rest_ok db F p tg x gt :
  stores (ns_rows db) F -> In tg (get_root_nodes (ns_rows db)) -> ~ In (nid x) (ids F) ->
  is_sib_pos p -> p <> SortedSibling ->
  exists db' r m1 m2, root_rest db p tg x = Ok (db', r) /\ In r (ns_rows db') /\ row_node r = x /\
    F = fapp m1 m2 /\ ins_split (sib_place p (n_pk tg) gt) (roots m1) (roots m2) /\
    stores (ns_rows db') (fapp m1 (Cons x Nil m2)).
Proof.
  intros St Hr Fr Hp Hns. assert (St' := St). destruct St' as (W & ts & I & P).
  set (L := get_root_nodes (ns_rows db)) in *.
  assert (EL : L = heads ts F) by (apply (get_root_nodes_heads _ F ts I P)).
  assert (I' := I). destruct I' as (I1 & I2 & I3).
  assert (ER : map row_node L = roots F) by (rewrite EL; apply heads_roots; auto).
  assert (ET : map n_tree L = ts) by (rewrite EL; apply heads_trees; auto).
  assert (ND : NoDup (map n_pk L)) by (apply map_pk_NoDup; rewrite ER; apply wf_roots; auto).
  assert (Hl : exists lr L0, L = L0 ++ [lr]).
  { destruct (last_opt L) as [lr|] eqn:E; [apply last_opt_Some in E; destruct E as [L0 E]; eauto|].
    apply last_opt_None in E. rewrite E in Hr. destruct Hr. }
  destruct Hl as (lr & L0 & El).
  assert (Elr : get_last_root_node (ns_rows db) = Some lr).
  { unfold get_last_root_node. fold L. rewrite El. apply last_opt_app. }
  assert (HT : forall U, In U ts -> 1 <= U) by (intros U HU; rewrite Forall_forall in I3; apply I3; auto).
  assert (Hlast : let r := mkNS (nid x) (n_tree lr + 1) 1 2 1 (ndata x) in
            stores (ns_rows (save_row db r)) (fapp F (Cons x Nil Nil)) /\ In r (ns_rows (save_row db r))).
  { assert (Hlt : In (n_tree lr) ts) by (rewrite <- ET; apply in_map; rewrite El; apply in_app_iff; simpl; auto).
    apply last_root_ok; auto. { apply HT in Hlt. lia. }
    intros r Hin. apply (in_t _ F ts P) in Hin. apply layout_tree in Hin.
    rewrite <- ET, El, map_app in I2, Hin. cbn [map] in I2, Hin. apply sorted_mid in I2.
    apply in_app_iff in Hin. destruct Hin as [Hin|[<-|[]]]; [|lia]. apply I2 in Hin. lia. }
  assert (Emk : forall T, row_node (mkNS (nid x) T 1 2 1 (ndata x)) = x) by (intros; apply node_eta).
  assert (Hmid : forall L1 L2 T, L = L1 ++ L2 -> 1 <= T -> (forall y, In y L1 -> n_tree y < T) ->
            (forall y, In y L2 -> T <= n_tree y) -> exists m1 m2, F = fapp m1 m2 /\
            roots m1 = map row_node L1 /\ roots m2 = map row_node L2 /\
            let r := mkNS (nid x) T 1 2 1 (ndata x) in
            stores (ns_rows (save_row (move_tree_right db T) r)) (fapp m1 (Cons x Nil m2)) /\
            In r (ns_rows (save_row (move_tree_right db T) r))).
  { intros L1 L2 T E HT1 H1 H2. rewrite E, map_app in ER. symmetry in ER.
    destruct (roots_app_split _ _ _ ER) as (m1 & m2 & EF & R1 & R2). exists m1, m2.
    split; auto. split; auto. split; auto.
    apply mid_root_ok with (F := F) (ts := ts) (u1 := map n_tree L1) (u2 := map n_tree L2); auto.
    - rewrite <- map_app, <- E. auto.
    - rewrite R1, !map_length. auto.
    - intros U HU. apply in_map_iff in HU. destruct HU as (y & <- & Hy). auto.
    - intros U HU. apply in_map_iff in HU. destruct HU as (y & <- & Hy). auto. }
  assert (Htg := in_split _ _ Hr). destruct Htg as (L1 & L2 & E).
  assert (Srt : (forall y, In y L1 -> n_tree y < n_tree tg) /\ (forall y, In y L2 -> n_tree tg < n_tree y)).
  { rewrite <- ET, E, map_app in I2. cbn [map] in I2. apply sorted_mid in I2. destruct I2 as [Ha Hb].
    split; intros y Hy; [apply Ha|apply Hb]; apply in_map; auto. }
  destruct Srt as [S1 S2].
  assert (Htt : 1 <= n_tree tg) by (apply HT; rewrite <- ET; apply in_map; auto).
  assert (Npre : forall y, In y (map row_node L1) -> nid y <> n_pk tg).
  { intros y Hy. apply in_map_iff in Hy. destruct Hy as (z & <- & Hz) . cbn [row_node nid]. intros Ez.
    apply S1 in Hz as Hlt. assert (z = tg); [|subst; lia].
    apply (NoDup_map_inj n_pk L); auto. rewrite E. apply in_app_iff. auto. }
  unfold root_rest. rewrite Elr. destruct p; try (destruct Hp; fail); try congruence; cbn [sib_place].
  - destruct (Hmid [] L 1) as (m1 & m2 & EF & R1 & R2 & S & Hin); auto; try lia.
    + intros ? [].
    + intros y Hy. apply HT. rewrite <- ET. apply in_map. auto.
    + eexists _, _, m1, m2. split; [reflexivity|]. auto 10.
  - destruct (Hmid L1 (tg :: L2) (n_tree tg)) as (m1 & m2 & EF & R1 & R2 & S & Hin); auto.
    + intros y [<-|Hy]; [lia|]. apply S2 in Hy. lia.
    + eexists _, _, m1, m2. split; [reflexivity|]. split; auto. split; auto. split; auto. split; auto.
      cbn [ins_split]. rewrite R1, R2. split; auto. cbn [map]. eauto.
  - assert (Sl := same_last L ND L1 tg L2 E). rewrite El, last_opt_app in Sl.
    destruct (same_pk tg (Some lr)).
    + assert (L2 = []) by (apply Sl; auto). subst L2. destruct Hlast as [Hst Hin].
      eexists _, _, F, Nil. split; [reflexivity|]. split; auto. split; auto. split; [rewrite fapp_nil_r; auto|].
      split; auto. cbn [ins_split]. rewrite <- ER, E, map_app. cbn [map]. exists (map row_node L1), (row_node tg). auto.
    + destruct (Hmid (L1 ++ [tg]) L2 (n_tree tg + 1)) as (m1 & m2 & EF & R1 & R2 & S & Hin); auto.
      * rewrite E, <- app_assoc. auto.
      * lia.
      * intros y Hy. apply in_app_iff in Hy. destruct Hy as [Hy|[<-|[]]]; [|lia]. apply S1 in Hy. lia.
      * intros y Hy. apply S2 in Hy. lia.
      * eexists _, _, m1, m2. split; [reflexivity|]. split; auto. split; auto. split; auto. split; auto.
        cbn [ins_split]. rewrite R1, map_app. cbn [map]. exists (map row_node L1), (row_node tg). auto.
  - destruct Hlast as [Hst Hin].
    eexists _, _, F, Nil. split; [reflexivity|]. split; auto. split; auto. split; [rewrite fapp_nil_r; auto|].
    split; auto. cbn [ins_split roots]. auto.
Qed.

Lemma sorted_before (gt : node -> bool) (f : nsrow -> bool) L s M (A B : list node) :
  (forall r, f r = gt (row_node r)) -> NoDup (map n_pk L) -> filter f L = s :: M ->
  A ++ B = map row_node L -> ins_split (PBefore (n_pk s)) A B -> ins_split (PSorted gt) A B.
Proof.
  intros Hf ND. revert A. induction L as [|y L IH]; cbn [filter]; [discriminate|].
  cbn [map] in ND. apply NoDup_cons_iff in ND. destruct ND as [N1 N2].
  intros [|a A] E1 E2 H; cbn [ins_split] in *.
  - destruct H as (_ & b & R & -> & Eb). cbn [app map] in E2. injection E2 as -> _. cbn [row_node nid] in Eb.
    destruct (f y) eqn:Ef.
    + split; [intros ? []|]. intros b R' E. injection E as <- _. rewrite <- Hf. auto.
    + exfalso. apply N1. rewrite Eb. apply in_map. assert (In s (filter f L)) by (rewrite E1; simpl; auto).
      apply filter_In in H. tauto.
  - cbn [app map] in E2. injection E2 as -> E2. destruct H as (H1 & H2). destruct (f y) eqn:Ef.
    + injection E1 as <- _. exfalso. apply (H1 (row_node y)); simpl; auto.
    + destruct (IH N2 A E1 E2) as [G1 G2]. { split; auto. intros; apply H1; simpl; auto. }
      split; auto. intros z [<-|Hz]; auto. rewrite <- Hf. auto.
Qed.

Lemma add_sibling_below o db target p P x : prepare_pos_add (is_sorted o) p = Ok P ->
  is_root (o_row target) = false ->
  add_sibling o db target p x =
    do '(p, tg) <- place_target o (ns_rows db) P (ndata x) target;
    do newpos <- match p with
              | LastSibling => parent_rgt (ns_rows db) tg
              | FirstSibling | Left => Ok (n_lft (o_row tg))
              | _ => Err KeyError
              end;
    let r := mkNS (nid x) (n_tree (o_row target)) newpos (newpos + 1) (n_depth (o_row target)) (ndata x) in
    Ok (save_row (alter_gap db (n_tree (o_row tg)) newpos 2) r, r).
Proof.
  intros E R. unfold add_sibling, place_target. rewrite E, R. cbn [bind].
  destruct (match P with SortedSibling => _ | _ => _ end) as [[q tg]|e]; auto.
Qed.

Lemma add_sibling_root o db target p P x : prepare_pos_add (is_sorted o) p = Ok P ->
  is_root (o_row target) = true -> n_depth (o_row target) = 1 ->
  add_sibling o db target p x =
    do '(p, tg) <-
      match P with
      | SortedSibling =>
          do sibs <- get_siblings (ns_rows db) (o_row target); Ok (sorted_target o sibs (ndata x) target)
      | _ => Ok (P, target)
      end;
    root_rest db p (o_row tg) x.
Proof. intros E R D. unfold add_sibling. rewrite E, R, D. reflexivity. Qed.

Theorem add_sibling_ok o db F target p P x :
  stores (ns_rows db) F -> good_obj (ns_rows db) target -> ~ In (nid x) (ids F) ->
  prepare_pos_add (is_sorted o) p = Ok P ->
  let gt n := sorted_after o (ndata x) (ndata n) in
  exists db' r, add_sibling o db target p x = Ok (db', r) /\ In r (ns_rows db') /\ row_node r = x /\
    stores (ns_rows db') (sp_add_sibling (n_pk (o_row target)) P gt x F).
Proof.
  intros St G Fr Pp gt. assert (Sp := prepare_add_sib _ _ _ Pp).
  assert (St' := St). destruct St' as (W & ts & I & Pt). assert (Ht := proj1 G).
  destruct (sibs_row _ F ts W I Pt _ Ht) as (up & l1 & a & k & l2 & Ea & C & U).
  destruct (up_row_ctx F W _ _ _ _ _ _ Ea C) as (U1 & U2 & U3).
  destruct (siblings_list _ F ts W I Pt _ Ht) as (L & L1 & L2 & EL & EL2 & M & HL).
  assert (ND : NoDup (map n_pk L)) by (apply map_pk_NoDup; rewrite M; apply siblings_NoDup; auto).
  assert (Hsp : forall m1 m2 F', fapp l1 (Cons a k l2) = fapp m1 m2 ->
            ins_split (sib_place P (n_pk (o_row target)) gt) (roots m1) (roots m2) ->
            Ctx up (fapp m1 m2) (fapp m1 (Cons x Nil m2)) F F' ->
            sp_add_sibling (n_pk (o_row target)) P gt x F = F').
  { intros m1 m2 F' E Hi Cx. unfold sp_add_sibling. rewrite (resolve_sib _ _ _ _ _ Sp U1).
    eapply Ctx_at_kids; [exact Cx|exact W|]. rewrite (ins_split_ok _ _ _ _ Hi). auto. }
  destruct up as [pp|]; cbn [up_row] in U.
  - destruct U as (xr & P1 & P2 & Hx & Ex & A & Hs & Q & N).
    assert (Rt : is_root (o_row target) = false) by (apply Z.eqb_neq; auto).
    destruct Hs as (S1 & S2 & S3 & S4 & S5).
    assert (ELt : L = tops (n_tree xr) (n_depth xr + 1) (n_lft xr + 1) (fapp l1 (Cons a k l2))).
    { unfold get_siblings in EL. unfold is_root in Rt. rewrite Rt, Q in EL. cbn [bind] in EL. injection EL as <-.
      apply (around_tops _ F ts W I Pt _ _ _ _ Hx A). }
    destruct (place_ok o (ns_rows db) L (fapp l1 (Cons a k l2)) ND) with (P := P) (d := ndata x) (tg := target)
      as (p' & tg' & m1 & m2 & E1 & El & Hi & Hin & Spt); auto.
    { rewrite ELt. apply tops_roots. }
    { apply (siblings_all _ F ts (o_row target) L W I Pt Ht EL). }
    { rewrite EL2. apply in_app_iff. simpl. auto. }
    destruct (spot_newpos _ F ts xr _ P1 P2 target p' tg' m1 m2 W I Pt Hx A El Spt) as (T1 & T2 & T3); auto.
    { rewrite <- ELt. auto. }
    rewrite (add_sibling_below o db target p P x Pp Rt), E1. cbn [bind]. rewrite T3. cbn [bind].
    destruct (C (fapp m1 (Cons x Nil m2))) as [F' Cx]. rewrite El in Cx.
    rewrite (Hsp _ _ _ El Hi Cx), T1, S2, S3.
    destruct (insert_ok db F pp m1 m2 x F' xr _ St Cx Fr Hx Ex eq_refl) as [H1 H2].
    eexists _, _. split; [reflexivity|]. split; auto. split; auto. apply node_eta.
  - destruct U as (EF & R1 & R2 & R3 & R4 & _).
    assert (Rt : is_root (o_row target) = true) by (apply Z.eqb_eq; auto).
    assert (ELt : L = get_root_nodes (ns_rows db)).
    { unfold get_siblings in EL. unfold is_root in Rt. rewrite Rt in EL. injection EL as <-. auto. }
    assert (Hin : In (o_row target) L) by (rewrite EL2; apply in_app_iff; simpl; auto).
    rewrite (add_sibling_root o db target p P x Pp Rt R2).
    assert (Fin : forall q tg, In (o_row tg) L -> is_sib_pos q -> q <> SortedSibling ->
       (forall m1 m2, F = fapp m1 m2 -> ins_split (sib_place q (n_pk (o_row tg)) gt) (roots m1) (roots m2) ->
          ins_split (sib_place P (n_pk (o_row target)) gt) (roots m1) (roots m2)) ->
       exists db' r, root_rest db q (o_row tg) x = Ok (db', r) /\ In r (ns_rows db') /\ row_node r = x /\
         stores (ns_rows db') (sp_add_sibling (n_pk (o_row target)) P gt x F)).
    { intros q tg Hq Sq Nq Hpl. rewrite ELt in Hq.
      destruct (root_rest_ok db F q (o_row tg) x gt St Hq Fr Sq Nq) as (db' & r & m1 & m2 & E1 & E2 & E3 & E4 & E5 & E6).
      exists db', r. split; auto. split; auto. split; auto.
      rewrite (Hsp m1 m2 (fapp m1 (Cons x Nil m2))); auto; [congruence|].
      rewrite E4. apply Ctx_top. }
    assert (ER : map row_node L = roots F).
    { rewrite M, U3, EF, roots_fapp. auto. }
    destruct P; try (destruct Sp; fail); cbn [bind]; try (apply Fin; auto; discriminate).
    rewrite EL. cbn [bind]. unfold sorted_target.
    destruct (filter (fun r => sorted_after o (ndata x) (n_data r)) L) as [|s R] eqn:Ef; cbn [bind fresh o_row].
    + apply Fin; auto; [discriminate|]. intros m1 m2 E. cbn [sib_place ins_split]. intros E0. split.
      * intros y Hy. assert (Hy' : In y (map row_node L)) by (rewrite ER, E, roots_fapp; apply in_app_iff; auto).
        apply in_map_iff in Hy'. destruct Hy' as (z & <- & Hz). unfold gt. cbn [row_node ndata].
        destruct (sorted_after o (ndata x) (n_data z)) eqn:Es; auto.
        assert (Hf : In z (filter (fun r => sorted_after o (ndata x) (n_data r)) L)) by (apply filter_In; auto).
        rewrite Ef in Hf. destruct Hf.
      * rewrite E0. discriminate.
    + assert (Hs : In s (filter (fun r => sorted_after o (ndata x) (n_data r)) L)) by (rewrite Ef; simpl; auto).
      apply (Fin Left (fresh s)); [apply filter_In in Hs; tauto|exact Logic.I|discriminate|].
      cbn [sib_place fresh o_row]. intros m1 m2 E. apply (sorted_before gt (fun r => sorted_after o (ndata x) (n_data r)) L s R); auto.
      rewrite ER, E, roots_fapp. auto.
Qed.

(** The order given to the specification. *)
Theorem add_root_ok o db F x :
  stores (ns_rows db) F -> ~ In (nid x) (ids F) ->
  exists db' r, add_root o db x = Ok (db', r) /\ In r (ns_rows db') /\ row_node r = x /\
    stores (ns_rows db') (sp_add_root (gt_opt o (ndata x)) x F).
Proof.
  intros St Fr. assert (St' := St). destruct St' as (W & ts & I & P).
  assert (EL := get_root_nodes_heads _ F ts I P).
  unfold add_root. destruct (get_last_root_node (ns_rows db)) as [lr|] eqn:El.
  - assert (Hl : In lr (get_root_nodes (ns_rows db))).
    { unfold get_last_root_node in El. apply last_opt_Some in El. destruct El as [L0 ->]. apply in_app_iff. simpl. auto. }
    assert (Hlt : In lr (ns_rows db)) by (rewrite EL in Hl; apply (heads_in _ F ts P); auto).
    destruct (is_sorted o) eqn:So.
    + destruct (add_sibling_ok o db F (fresh lr) (Some "sorted-sibling"%string) SortedSibling x St
                  (good_fresh _ _ Hlt) Fr) as (db' & r & E1 & E2 & E3 & E4).
      { rewrite So. reflexivity. }
      exists db', r. split; auto. split; auto. split; auto.
      assert (Eq : sp_add_sibling (n_pk (o_row (fresh lr))) SortedSibling
                (fun n => sorted_after o (ndata x) (ndata n)) x F = sp_add_root (gt_opt o (ndata x)) x F).
      { unfold sp_add_sibling, resolve, sp_add_root, gt_opt. cbn [fresh o_row].
        change (sorts o) with (is_sorted o). rewrite So.
        assert (parent_of (n_pk lr) F = Some None) as ->; [|reflexivity].
        assert (C := Ctx_top F F). eapply Ctx_parent_of; [exact C|exact W|].
        rewrite <- (heads_roots ts F) by apply I. rewrite EL in Hl. rewrite map_map. 
        apply (in_map n_pk) in Hl. exact Hl. }
      rewrite <- Eq. auto.
    + destruct (root_rest_ok db F LastSibling lr x (fun _ => true) St Hl Fr Logic.I ltac:(discriminate))
        as (db' & r & m1 & m2 & E1 & E2 & E3 & E4 & E5 & E6).
      unfold root_rest in E1. rewrite El in E1. exists db', r. split; auto. split; auto. split; auto.
      unfold sp_add_root, gt_opt. change (sorts o) with (is_sorted o). rewrite So.
      rewrite E4. rewrite (ins_split_ok PLast (leaf x) m1 m2) by exact E5. auto.
  - unfold get_last_root_node in El. apply last_opt_None in El.
    assert (F = Nil).
    { rewrite EL in El. destruct I as (I1 & _). rewrite <- (map_length row_node), heads_roots in I1 || idtac.
      assert (H := heads_roots ts F I1). rewrite El in H. destruct F; [auto|discriminate]. }
    subst F. destruct (last_root_ok db Nil x 1 St Fr ltac:(lia)) as [H1 H2].
    { intros r Hr. apply (in_t _ Nil ts P) in Hr. destruct ts; destruct Hr. }
    eexists _, _. split; [reflexivity|]. split; auto. split; [apply node_eta|].
    unfold sp_add_root, gt_opt. destruct (sorts o); cbn [ins ins_before fapp] in *; auto.
Qed.

Lemma child_row t F ts nd k P1 P2 c : wf_ids F -> ids_ok ts F -> Permutation t (layout ts F) ->
  In nd t -> around (layout ts F) nd k P1 P2 -> children_of (n_pk nd) F = Some k ->
  (forall l', exists F', Ctx (Some (n_pk nd)) k l' F F') ->
  In c (get_children t nd) -> In c t /\ query_parent t c = Ok nd /\
    parent_of (n_pk c) F = Some (Some (n_pk nd)) /\ is_root c = false.
Proof.
  intros W I P Hn A Ek C Hc. rewrite (around_tops t F ts W I P _ _ _ _ Hn A) in Hc.
  assert (Hct : In c t) by (apply tops_in in Hc; apply (around_in t F ts P _ _ _ _ _ A Hc)).
  assert (Pc : parent_of (n_pk c) F = Some (Some (n_pk nd))).
  { destruct (C Nil) as [F' CF]. eapply Ctx_parent_of; [exact CF|exact W|].
    apply (in_map row_node) in Hc. rewrite tops_roots in Hc. apply (in_map nid) in Hc. exact Hc. }
  split; auto. destruct (sibs_row t F ts W I P c Hct) as (up & l1 & a & kk & l2 & Ea & Cc & U).
  destruct (up_row_ctx F W _ _ _ _ _ _ Ea Cc) as (U1 & U2 & U3). rewrite Pc in U1. injection U1 as <-.
  cbn [up_row] in U. destruct U as (xr & Q1 & Q2 & Hx & Ex & _ & _ & Q & N).
  assert (xr = nd) by (apply (row_eq t F ts W I P); auto). subst xr. split; auto. split; auto.
  apply Z.eqb_neq. auto.
Qed.

Lemma get_last_child_in t nd c : get_last_child t nd = Some c -> In c (get_children t nd).
Proof. unfold get_last_child. intros E. apply last_opt_Some in E. destruct E as [L ->]. apply in_app_iff. simpl. auto. Qed.

Lemma gt_opt_sorted o d : is_sorted o = true -> gt_opt o d = Some (fun n => sorted_after o d (ndata n)).
Proof. unfold gt_opt. change (sorts o) with (is_sorted o). intros ->. reflexivity. Qed.
Lemma gt_opt_unsorted o d : is_sorted o = false -> gt_opt o d = None.
Proof. unfold gt_opt. change (sorts o) with (is_sorted o). intros ->. reflexivity. Qed.

(** The caller's parent object: its rgt is 2 too large unless it was a leaf. *)
Theorem add_child_ok o db F target x :
  stores (ns_rows db) F -> In (n_pk target) (ids F) -> ~ In (nid x) (ids F) ->
  exists db' r target', add_child o db target x = Ok (db', r, target') /\ In r (ns_rows db') /\ row_node r = x /\
    stores (ns_rows db') (sp_add_child (gt_opt o (ndata x)) (n_pk target) x F) /\
    (In target (ns_rows db) -> is_leaf target = true -> In target' (ns_rows db')).
Proof.
  intros St Hi Fr. assert (St' := St). destruct St' as (W & ts & I & P).
  destruct (pk_row _ F ts I P _ Hi) as (nd & Hn & En).
  unfold add_child. rewrite <- En. rewrite (get_by_pk_in _ F ts W I P nd Hn). cbn [bind].
  destruct (kids_row _ F ts W I P nd Hn) as (k & P1 & P2 & Ek & A & C).
  assert (Lf := leaf_iff F ts _ _ _ _ A).
  assert (Ech := around_tops _ F ts W I P _ _ _ _ Hn A).
  assert (Same : In target (ns_rows db) -> target = nd) by (intros; apply (row_eq _ F ts W I P); auto).
  destruct (is_leaf nd) eqn:El; cbn [negb].
  - assert (k = Nil) by (apply Lf; auto). subst k.
    destruct (C (fapp Nil (Cons x Nil Nil))) as [F' Cx].
    assert (Hr : n_rgt nd = n_lft nd + 1).
    { unfold is_leaf in El. apply Z.eqb_eq in El. lia. }
    destruct (insert_ok db F (n_pk nd) Nil Nil x F' nd (n_rgt nd) St Cx Fr Hn eq_refl) as [H1 H2].
    { cbn [size]. lia. }
    replace (n_lft nd + 1) with (n_rgt nd) by lia. replace (n_lft nd + 2) with (n_rgt nd + 1) by lia.
    eexists _, _, _. split; [reflexivity|]. split; auto. split; [apply node_eta|]. split.
    + assert (Eq : sp_add_child (gt_opt o (ndata x)) (n_pk nd) x F = F'); [|rewrite Eq; exact H1].
      eapply Ctx_at_kids; [exact Cx|exact W|]. destruct (gt_opt o (ndata x)); reflexivity.
    + intros Hin _. rewrite (Same Hin). rewrite save_new.
      * cbn [ns_rows]. right. unfold alter_gap. cbn [ns_rows]. apply in_map_iff. exists nd. split; auto.
        unfold alter_sel, alter_row, set_rgt. rewrite Z.eqb_refl, Z.leb_refl.
        replace (n_lft nd >=? n_rgt nd) with false by (symmetry; rewrite Z.geb_leb; apply Z.leb_gt; lia).
        destruct nd; cbn in *. rewrite ?Z.geb_leb, ?Z.leb_refl. cbn.
        replace (n_rgt <=? n_lft) with false by (symmetry; apply Z.leb_gt; lia). auto.
      * rewrite alter_gap_pks. cbn [n_pk]. intros H. apply Fr. apply (Permutation_in _ (pks _ F ts I P)). auto.
  - assert (exists lc, get_last_child (ns_rows db) nd = Some lc) as [lc Elc].
    { unfold get_last_child. rewrite Ech. destruct (last_opt _) eqn:E; eauto. exfalso.
      apply last_opt_None in E. assert (R := tops_roots (n_tree nd) k (n_depth nd + 1) (n_lft nd + 1)).
      rewrite E in R. destruct k; [|discriminate]. assert (false = true) by (apply Lf; auto). discriminate. }
    rewrite Elc. destruct (child_row _ F ts nd k P1 P2 lc W I P Hn A Ek C (get_last_child_in _ _ _ Elc)) as (Hc & Q & Pc & Rc).
    assert (G : good_obj (ns_rows db) (mkObj lc (Some nd))).
    { split; auto. cbn [o_up o_row]. intros y E. injection E as <-. auto. }
    set (P0 := if is_sorted o then SortedSibling else LastSibling).
    destruct (add_sibling_ok o db F (mkObj lc (Some nd))
               (Some (if is_sorted o then "sorted-sibling"%string else "last-sibling"%string)) P0 x St G Fr)
      as (db' & r & E1 & E2 & E3 & E4).
    { unfold P0. destruct (is_sorted o); reflexivity. }
    rewrite E1. cbn [bind]. eexists _, _, _. split; [reflexivity|]. split; auto. split; auto. split.
    + assert (Eq : sp_add_sibling (n_pk (o_row (mkObj lc (Some nd)))) P0
                (fun n => sorted_after o (ndata x) (ndata n)) x F = sp_add_child (gt_opt o (ndata x)) (n_pk nd) x F).
      { unfold sp_add_sibling, resolve, sp_add_child, P0. cbn [o_row]. rewrite Pc. destruct (is_sorted o) eqn:So.
        - rewrite gt_opt_sorted; auto.
        - rewrite gt_opt_unsorted; auto. }
      rewrite <- Eq. auto.
    + intros Hin Hlf. rewrite (Same Hin), El in Hlf. discriminate.
Qed.
