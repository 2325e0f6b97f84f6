(** Concurrent add_root and add_child calls on ltree trees without node_order_by (C81). *)
From Coq Require Import List Arith Lia Bool ZArith Permutation.
From Verif Require Import Prelude Forest SpecFacts SpecSane SpecPerm CommonModel Order History SpecRun
  LTModel LTInv LTAdd LTCheck LTHist PropsLT ConcModel ConcLTModel ConcRun ConcLT.
From Verif Require ConcRoots.
Import ConcRoots(growth(..), grown_by, is_root_call, grow).
Import ListNotations.
Local Open Scope nat_scope.

Section LT.
Variable cfg : lt_cfg.
Hypothesis unsorted : lt_order cfg = [].
Hypothesis label2 : 2 <= label_max cfg.
Notation stores := (stores cfg).
Notation newpath := (newpath cfg).
Notation mid := (mid cfg).
Notation solo := (solo l_pk lt_same).

Definition call_of (c : growth) : call := match c with Child k x => CAddChild k x | Root x => CAddRoot x end.
(** The transaction of a call: /repo/treebeard/ltree/__init__.py:162-227 *)
Definition begun (c : growth) : prog ltrow := match c with Child k x => lt_add_child cfg k x | Root x => lt_add_root_by cfg x end.
(** The call alone: /repo/treebeard/ltree/__init__.py:162-227 *)
Definition grow_exec (t : lt_table) (c : growth) : res lt_table :=
  do db <- lt_exec cfg (mkLTDB t []) (call_of c); Ok (lt_rows db).

(** The path of a new root: /repo/treebeard/ltree/__init__.py:169-186 *)
Definition nextpath (t : lt_table) : res lpath :=
  do np <- (match get_last_root_node t with
            | Some _ => generate_path [] None None (map l_path (get_root_nodes t))
            | None => generate_path [] None None []
            end);
  if fits_ltree cfg np then Ok np else Err DataError.

Definition fresh (t : lt_table) (c : growth) : Prop := ~ In (nid (grown_by c)) (map l_pk t).

Lemma path_gen b a s np : generate_path [] b a s = Ok np -> exists l, np = [l].
Proof.
  unfold generate_path. destruct (generate_label _ b a) as [l|]; cbn [bind]; [|discriminate]. intros E. injection E as <-. eauto.
Qed.

Lemma nextpath_one t np : nextpath t = Ok np -> exists l, np = [l].
Proof.
  unfold nextpath. destruct (get_last_root_node t); (destruct (generate_path _ _ _ _) as [q|] eqn:E; cbn [bind]; [|discriminate];
    destruct (fits_ltree cfg q); [|discriminate]; intros Q; injection Q as <-; eapply path_gen; eauto).
Qed.

Lemma root_eq t x : ok t -> fresh t (Root x) -> grow_exec t (Root x) =
  do np <- nextpath t; if existsb (lt_same (newrow x np)) t then Err IntegrityError else Ok (newrow x np :: t).
Proof.
  intros [N1 N2] Rd. unfold fresh in Rd. cbn [grown_by] in Rd.
  unfold grow_exec, lt_exec, add_root, nextpath. cbn [call_of lt_rows lt_sig]. rewrite (not_sorted cfg unsorted).
  assert (K : forall r, (do db <- (do r0 <- (do '(db', r1) <- (do np <- r;
       let r1 := mkLT (new_pk (new_of x)) np (new_data (new_of x)) in do t0 <- save_row cfg t r1; Ok (mkLTDB t0 [], r1));
       do db'' <- commit db'; Ok (db'', r1)); Ok (fst r0)); Ok (lt_rows db)) =
     do np <- (do np <- r; if fits_ltree cfg np then Ok np else Err DataError);
     if existsb (lt_same (newrow x np)) t then Err IntegrityError else Ok (newrow x np :: t)).
  { intros [np|e]; cbn [bind]; auto. cbv zeta.
    change (mkLT (new_pk (new_of x)) np (new_data (new_of x))) with (newrow x np).
    unfold save_row. cbn [l_path newrow]. destruct (fits_ltree cfg np); cbn [negb bind]; auto.
    assert (Npk : existsb (fun a => l_pk a =? l_pk (newrow x np)) t = false).
    { apply not_true_iff_false. intros Ex. apply existsb_exists in Ex. destruct Ex as (a & Ha & Ea).
      apply Nat.eqb_eq in Ea. apply Rd. cbn in Ea. rewrite <- Ea. apply in_map. auto. }
    change (mkLT (nid x) np (ndata x)) with (newrow x np).
    rewrite Npk. cbn [bind]. unfold commit. cbn [lt_rows unique_paths]. rewrite (proj2 (unique_paths_iff t) N2), andb_true_r.
    assert (Es : existsb (lt_same (newrow x np)) t = existsb (fun a => peq (l_path a) (l_path (newrow x np))) t).
    { clear - Npk. induction t as [|a t IH]; auto. cbn [existsb] in *. apply orb_false_iff in Npk. destruct Npk as [E1 E2].
      rewrite IH; auto. f_equal. unfold lt_same. rewrite Nat.eqb_sym, E1. cbn [orb]. apply eq_true_iff_eq. rewrite !peq_iff.
      split; auto. }
    rewrite Es. destruct (existsb (fun a => peq (l_path a) (l_path (newrow x np))) t); reflexivity. }
  destruct (get_last_root_node t); apply K.
Qed.

Lemma path_some t F r : stores t F -> In r t -> l_path r <> [].
Proof.
  intros (f & L & _) H. destruct (lay_in cfg _ _ _ L H) as (x & Hx & ->).
  destruct L as (W & _). assert (Q := k_len f x W Hx). cbn. destruct (fst x); cbn in *; [lia|discriminate].
Qed.

Lemma nextpath_child t F nd x np : stores t F -> In nd t -> newpath t nd = Ok np -> nextpath (newrow x np :: t) = nextpath t.
Proof.
  intros St Hn En. destruct (newpath_parent cfg t nd np En) as [l ->]. assert (Q := path_some t F nd St Hn).
  assert (E : get_root_nodes (newrow x (l_path nd ++ [l]) :: t) = get_root_nodes t).
  { unfold get_root_nodes. cbn [filter newrow l_path]. rewrite app_length.
    replace (length (l_path nd) + length [l] =? 1) with false; auto. symmetry. apply Nat.eqb_neq. destruct (l_path nd); [congruence|]. cbn. lia. }
  unfold nextpath, get_last_root_node. rewrite E. reflexivity.
Qed.

Lemma children_root t F nd x l : stores t F -> In nd t -> get_children (newrow x [l] :: t) nd = get_children t nd.
Proof.
  intros St Hn. assert (Q := path_some t F nd St Hn). unfold get_children. cbn [filter newrow l_path length].
  destruct (l_path nd) as [|a p]; [congruence|]. cbn [length]. replace (1 =? S (length p) + 1) with false by (symmetry; apply Nat.eqb_neq; lia).
  rewrite andb_false_r. reflexivity.
Qed.

(** The row of a new root and that of a new child are never in conflict. *)
Lemma root_child t F nd x z l np : stores t F -> In nd t -> newpath t nd = Ok np -> nid x <> nid z ->
  lt_same (newrow x np) (newrow z [l]) = false /\ lt_same (newrow z [l]) (newrow x np) = false.
Proof.
  intros St Hn En N. destruct (newpath_parent cfg t nd np En) as [l' ->]. assert (Q := path_some t F nd St Hn).
  assert (P : l_path nd ++ [l'] <> [l]).
  { intros E. apply (f_equal (@length _)) in E. rewrite app_length in E. destruct (l_path nd); [congruence|]. cbn in E. lia. }
  unfold lt_same. cbn [newrow l_pk l_path]. split; apply orb_false_iff; (split; [apply Nat.eqb_neq; auto|]);
    apply not_true_iff_false; intros E; apply peq_iff in E; congruence.
Qed.

Lemma mid_root t F k x z l y : stores t F -> nid x <> nid z -> mid t k x y -> mid (newrow z [l] :: t) k x y.
Proof.
  intros St Nx M.
  assert (K : forall nd, In nd t -> is_leaf (newrow z [l] :: t) nd = is_leaf t nd /\
    get_last_child (newrow z [l] :: t) nd = get_last_child t nd /\ newpath (newrow z [l] :: t) nd = newpath t nd).
  { intros nd Hn. unfold ConcLT.newpath, is_leaf, get_last_child. rewrite (children_root t F nd z l St Hn). auto. }
  destruct M as [nd Hn Ek|nd Hn Ek El|nd last Hn Ek El Ea|nd np Hn Ek En|nd np Hn Ek En Ex]; destruct (K nd Hn) as (K1 & K2 & K3);
    assert (Hn' : In nd (newrow z [l] :: t)) by (right; auto).
  - apply mid_leaf; auto.
  - apply mid_last; auto. congruence.
  - apply mid_skip; auto; congruence.
  - eapply mid_insert; eauto; congruence.
  - eapply mid_commit; eauto; [congruence|]. cbn [existsb]. rewrite Ex, orb_false_r. apply (root_child t F nd x z l np); auto.
Qed.

Variable calls : list growth.
Variable t0 : lt_table.
Variable F0 : forest node.

(** The calls one after the other, in the order of the log; an add_root may fail because
    another one has taken its path. *)
Inductive serial : list (nat * option exn) -> lt_table -> Prop :=
| serial_nil : serial [] t0
| serial_ok l t i c t' : serial l t -> nth_error calls i = Some c -> grow_exec t c = Ok t' -> serial (l ++ [(i, None)]) t'
| serial_fail l t i c e : serial l t -> nth_error calls i = Some c -> grow_exec t c = Err e -> serial (l ++ [(i, Some e)]) t
| serial_clash l t i x j z : serial l t -> nth_error calls i = Some (Root x) ->
    In (j, None) l -> nth_error calls j = Some (Root z) -> serial (l ++ [(i, Some IntegrityError)]) t.

Hypothesis all_apart : forall i j c d, i <> j -> nth_error calls i = Some c -> nth_error calls j = Some d ->
  nid (grown_by c) <> nid (grown_by d).
Hypothesis stores0 : stores t0 F0.
Hypothesis fresh0 : forall c, In c calls -> fresh t0 c.

(** The table stores the forest up to the order of siblings. *)
Definition holds (t : lt_table) (S : forest node) : Prop := wf_ids S /\ exists F, stores t F /\ same_kids S F.

Definition taken (log : list (nat * option exn)) (t : lt_table) (np : lpath) : Prop :=
  In np (map l_path t) /\ exists j z, In (j, None) log /\ nth_error calls j = Some (Root z).
Definition choosing (x : node) : tx ltrow :=
  mkTx (reads (fun t => generate_path [] None None (map l_path (get_root_nodes t))) (lt_insert cfg x)) [] [] None.
Definition inserting (x : node) (np : lpath) : tx ltrow := mkTx (Insert (newrow x np) Commit) [] [] None.
Definition pending (x : node) (np : lpath) : tx ltrow := mkTx Commit [New (newrow x np)] [] None.

Definition state (log : list (nat * option exn)) (t : lt_table) (c : growth) (y : tx ltrow) : Prop :=
  match c with
  | Child k x => y = begin (begun c) \/ mid t k x y
  | Root x => y = begin (begun c) \/ (y = choosing x /\ get_last_root_node t <> None) \/
      (exists np, y = inserting x np /\ (nextpath t = Ok np \/ taken log t np)) \/
      (exists np, y = pending x np /\ nextpath t = Ok np /\ existsb (lt_same (newrow x np)) t = false)
  end.

Record inv (W : world ltrow) : Prop := {
  v_serial : serial (w_log W) (w_rows W);
  v_stores : holds (w_rows W) (fold_left grow (succeeded calls (w_log W)) F0);
  v_len : length (w_txs W) = length calls;
  v_nodup : NoDup (map fst (w_log W));
  v_done : forall i, In i (map fst (w_log W)) <-> nth_error (w_txs W) i = Some None;
  v_run : forall i y, nth_error (w_txs W) i = Some (Some y) ->
    exists c, nth_error calls i = Some c /\ fresh (w_rows W) c /\ state (w_log W) (w_rows W) c y;
  v_pair : forall i j k x k' x' y y', i <> j -> nth_error calls i = Some (Child k x) -> nth_error calls j = Some (Child k' x') ->
    nth_error (w_txs W) i = Some (Some y) -> nth_error (w_txs W) j = Some (Some y') ->
    y = begin (begun (Child k x)) \/ y' = begin (begun (Child k' x')) \/ k <> k';
  v_one : forall i j x z np np', i <> j -> nth_error calls i = Some (Root x) -> nth_error calls j = Some (Root z) ->
    nth_error (w_txs W) i = Some (Some (pending x np)) -> nth_error (w_txs W) j = Some (Some (pending z np')) -> False }.

Lemma stores_wf t F : stores t F -> wf_ids F.
Proof. intros (f & _ & <- & W). auto. Qed.

Lemma inv_begin : inv (all_begin t0 (map begun calls)).
Proof.
  unfold all_begin. split; cbn.
  - apply serial_nil.
  - split; [eapply stores_wf; eauto|]. exists F0. split; auto. apply same_refl.
  - rewrite !map_length. auto.
  - constructor.
  - intros i. split; [intros []|]. intros E. apply nth_error_In in E. apply in_map_iff in E. destruct E as (p & E & _). discriminate.
  - intros i x E. rewrite map_map in E. rewrite nth_error_map in E.
    destruct (nth_error calls i) as [c|] eqn:Ec; [|discriminate]. cbn in E. injection E as E. exists c.
    split; auto. split; [apply fresh0; eapply nth_error_In; eauto|]. destruct c; left; auto.
  - intros i j k x k' x' y y' N Ec Ed Ex Ey. left. rewrite map_map in Ex. rewrite nth_error_map in Ex. rewrite Ec in Ex.
    cbn in Ex. congruence.
  - intros i j x z np np' N Ec Ed Ex Ey. rewrite map_map, nth_error_map, Ec in Ex. cbn in Ex. discriminate.
Qed.

Definition to_root (t : lt_table) (x : node) (r : res lpath) : outcome ltrow :=
  match r with Ok np => Go (inserting x np) | Err e => End t (Some e) end.

Lemma root_step t x r : goes t (or_raise r (lt_insert cfg x)) [] [] =
  to_root t x (do np <- r; if fits_ltree cfg np then Ok np else Err DataError).
Proof. destruct r as [np|e]; cbn [or_raise bind]; auto. unfold lt_insert. destruct (fits_ltree cfg np); auto. Qed.

Lemma solo_root t x : solo t (begin (begun (Root x))) =
  match get_last_root_node t with Some _ => Go (choosing x) | None => to_root t x (nextpath t) end.
Proof.
  unfold ConcModel.solo, begin, begun, lt_add_root_by, reads at 1, visible, nextpath. cbn [x_prog x_writes x_locks x_found fold_left or_raise].
  rewrite (not_sorted cfg unsorted). destruct (get_last_root_node t) as [l|]; [reflexivity|]. apply root_step.
Qed.

Lemma solo_choosing t x : get_last_root_node t <> None -> solo t (choosing x) = to_root t x (nextpath t).
Proof.
  intros H. unfold ConcModel.solo, choosing, reads, visible, nextpath. cbn [x_prog x_writes x_locks x_found fold_left].
  rewrite root_step. destruct (get_last_root_node t); [reflexivity|congruence].
Qed.

Lemma solo_inserting t x np : solo t (inserting x np) =
  if existsb (lt_same (newrow x np)) t then End t (Some IntegrityError) else Go (pending x np).
Proof. reflexivity. Qed.

Lemma solo_pending t x np : solo t (pending x np) = End (newrow x np :: t) None.
Proof. reflexivity. Qed.

Lemma taken_clash log t x np : taken log t np -> existsb (lt_same (newrow x np)) t = true.
Proof.
  intros [H _]. apply in_map_iff in H. destruct H as (a & E & Ha). apply existsb_exists. exists a. split; auto.
  unfold lt_same. cbn [newrow l_path]. rewrite E, (proj2 (peq_iff _ _) eq_refl). apply orb_true_r.
Qed.

Notation SZ := (lt_serializable cfg unsorted).

Lemma holds_stores t S : holds t S -> exists F, stores t F.
Proof. intros (_ & F & H & _). eauto. Qed.

Lemma child_go t k x y y' : ok t -> y = begin (begun (Child k x)) \/ mid t k x y -> solo t y = Go y' -> mid t k x y'.
Proof.
  intros Ht H E. apply (reach_mid cfg t k x y').
  destruct H as [->|H]; [apply reach_first; auto|].
  eapply reach_next; [apply (mid_reach cfg t k x y Ht H)|auto].
Qed.

Lemma child_end t k x y rows e : ok t -> fresh t (Child k x) -> y = begin (begun (Child k x)) \/ mid t k x y ->
  solo t y = End rows e -> grow_exec t (Child k x) = match e with None => Ok rows | Some e => Err e end.
Proof.
  intros Ht Rd H E. apply (s_end _ _ _ _ _ _ _ _ _ _ SZ t (k, x) y rows e Ht Rd); auto.
  destruct H as [->|H]; [left; auto|right]. apply (mid_reach cfg t k x y Ht H).
Qed.

Lemma state_log log i e t c y : state log t c y -> state (log ++ [(i, e)]) t c y.
Proof.
  destruct c as [k x|x]; auto. intros [H|[H|[(np & E & [H|[H1 (j & z & H2 & H3)]])|H]]];
    [left; auto|right; left; auto|right; right; left|right; right; left|right; right; right; auto].
  - exists np. auto.
  - exists np. split; auto. right. split; auto. exists j, z. split; auto. apply in_or_app. auto.
Qed.

Lemma grow_ok t c t' : ok t -> fresh t c -> grow_exec t c = Ok t' ->
  exists np, t' = newrow (grown_by c) np :: t /\
    match c with Child k _ => exists nd, In nd t /\ l_pk nd = k /\ newpath t nd = Ok np | Root _ => nextpath t = Ok np end.
Proof.
  intros Ht Rd E. destruct c as [k x|x].
  - destruct (exec_ok cfg unsorted t k x t' Ht Rd E) as (nd & np & H1 & H2 & H3 & _ & H4). exists np. split; eauto.
  - rewrite root_eq in E by auto. destruct (nextpath t) as [np|]; [|discriminate]. cbn [bind] in E.
    destruct (existsb _ t); [discriminate|]. injection E as <-. eauto.
Qed.

Lemma grow_stores t S c t' : holds t S -> fresh t c -> grow_exec t c = Ok t' -> holds t' (grow S c).
Proof.
  intros (WS & F & St & Sm) Rd E. unfold grow_exec in E.
  destruct (lt_exec cfg (mkLTDB t []) (call_of c)) as [db|] eqn:E1; [|discriminate]. cbn [bind] in E. injection E as <-.
  assert (FrF : ~ In (nid (grown_by c)) (ids F)) by (rewrite (ids_iff cfg t F _ St); exact Rd).
  assert (FrS : ~ In (nid (grown_by c)) (ids S)) by (intros Q; apply FrF; apply (proj1 (same_ids S F Sm _) Q)).
  assert (Fr : fresh_call F (call_of c)) by (destruct c; intros i [<-|[]]; exact FrF).
  destruct (C30_call_partial cfg (mkLTDB t []) F (call_of c) label2 St Fr) as [(db' & F' & S' & E2 & E3 & E4 & E5 & _)|[(e & E2 & _)|[[E2 _]|[E2 _]]]]; try congruence.
  assert (db' = db) by congruence. subst db'. rewrite unsorted in E3. assert (WF := stores_wf t F St).
  assert (H : sp_exec [] S (call_of c) = Ok (grow S c) /\ same_kids (grow S c) S').
  { destruct c as [k x|x]; cbn [call_of grow sp_exec grown_by] in *.
    - destruct (has k F) eqn:Hk; [|discriminate].
      assert (S' = sp_add_child None k x F) by (injection E3 as <-; reflexivity). subst S'.
      rewrite <- (same_has S F k Sm) in Hk. rewrite Hk. split; [reflexivity|]. apply same_add_child; auto. apply has_spec. auto.
    - assert (S' = sp_add_root None x F) by (injection E3 as <-; reflexivity). subst S'.
      split; [reflexivity|]. apply same_add_root; auto. }
  destruct H as [H1 H2]. split.
  - assert (Fr' : fresh_call S (call_of c)) by (destruct c; intros i [<-|[]]; exact FrS).
    apply (sp_exec_ids [] S (call_of c) _ WS Fr' H1).
  - exists F'. split; auto. eapply same_trans; eauto.
Qed.

Lemma inv_step W i : inv W -> inv (step l_pk lt_same W i).
Proof.
  intros I. unfold step. destruct (nth_error (w_txs W) i) as [[y|]|] eqn:Ey; auto.
  destruct (blocked lt_same W i y) eqn:Eb; auto. rewrite blocked_false in Eb.
  destruct (v_run W I i y Ey) as (c & Ec & Rc & Sc). destruct (holds_stores _ _ (v_stores W I)) as [G St].
  assert (Ht := stores_ok cfg _ _ St).
  destruct (solo (w_rows W) y) as [y'|rows e] eqn:Es.
  - (* goes on *)
    assert (Sc' : state (w_log W) (w_rows W) c y').
    { destruct c as [k x|x].
      - right. apply (child_go _ k x y y' Ht Sc Es).
      - destruct Sc as [->|[[-> H]|[(np & -> & H)|(np & -> & _)]]].
        + rewrite solo_root in Es. destruct (get_last_root_node (w_rows W)) eqn:El.
          * injection Es as <-. right. left. split; auto. congruence.
          * unfold to_root in Es. destruct (nextpath (w_rows W)) as [np|] eqn:En; [|discriminate].
            injection Es as <-. right. right. left. exists np. auto.
        + rewrite solo_choosing in Es by auto. unfold to_root in Es. destruct (nextpath (w_rows W)) as [np|] eqn:En; [|discriminate].
          injection Es as <-. right. right. left. exists np. auto.
        + rewrite solo_inserting in Es. destruct (existsb _ _) eqn:Ex; [discriminate|]. injection Es as <-.
          right. right. right. exists np. split; auto. split; auto.
          destruct H as [H|H]; auto. apply taken_clash with (x := x) in H. congruence.
        + rewrite solo_pending in Es. discriminate. }
    destruct I as [I1 I2 I3 I4 I5 I6 I7 I8]. split; cbn [w_rows w_txs w_log]; auto.
    + rewrite set_nth_length. auto.
    + intros j. rewrite nth_set_nth. rewrite I5. destruct (Nat.eqb_spec j i) as [->|]; [|tauto].
      rewrite Ey. cbn. split; intros; discriminate.
    + intros j z. rewrite nth_set_nth. destruct (Nat.eqb_spec j i) as [->|]; [|apply I6].
      rewrite Ey. cbn. intros E. injection E as <-. exists c. auto.
    + assert (K : forall j k x k' x' z, j <> i -> c = Child k x -> nth_error calls j = Some (Child k' x') ->
         nth_error (w_txs W) j = Some (Some z) -> z = begin (begun (Child k' x')) \/ k <> k').
      { intros j k x k' x' z N -> Ed Ez. destruct (I6 j z Ez) as (d' & Ed' & Rd & Md). rewrite Ed in Ed'. injection Ed' as <-.
        destruct Md as [Md|Md]; auto.
        destruct (I7 i j k x k' x' y z (not_eq_sym N) Ec Ed Ey Ez) as [->|[->|C]]; auto.
        right. apply (s_first _ _ _ _ _ _ _ _ _ _ SZ (w_rows W) (k, x) (k', x') y' z Ht Rc Rd); auto.
        - apply (all_apart i j (Child k x) (Child k' x')); auto.
        - apply (mid_reach cfg _ k' x' z Ht Md).
        - apply (Eb j); auto. }
      intros j l k x k' x' z z' N Ed Ef. rewrite !nth_set_nth.
      destruct (Nat.eqb_spec j i) as [->|Nj]; destruct (Nat.eqb_spec l i) as [->|Nk]; [lia| | |apply I7; auto].
      * rewrite Ey. cbn [option_map]. intros E Ez. injection E as <-. rewrite Ec in Ed. injection Ed as ->.
        destruct (K l k x k' x' z' Nk eq_refl Ef Ez); auto.
      * rewrite Ey. cbn [option_map]. intros Ez E. injection E as <-. rewrite Ec in Ef. injection Ef as ->.
        destruct (K j k' x' k x z Nj eq_refl Ed Ez) as [H|H]; auto.
    + assert (K : forall j x z np np', j <> i -> c = Root x -> nth_error calls j = Some (Root z) -> y' = pending x np ->
         nth_error (w_txs W) j = Some (Some (pending z np')) -> False).
      { intros j x z np np' N -> Ed E Ez. assert (Wt := Eb j _ N Ez). subst y'.
        destruct (I6 j _ Ez) as (d' & Ed' & _ & Sd). rewrite Ed in Ed'. injection Ed' as <-.
        assert (Nz : nextpath (w_rows W) = Ok np').
        { destruct Sd as [Sd|[[Sd _]|[(q & E2 & _)|(q & E2 & Eq & _)]]]; [discriminate|discriminate|discriminate|]. injection E2 as <-. auto. }
        assert (Nx : nextpath (w_rows W) = Ok np).
        { destruct Sc' as [Sd'|[[Sd' _]|[(q & E2 & _)|(q & E2 & Eq & _)]]]; [discriminate|discriminate|discriminate|]. injection E2 as <-. auto. }
        destruct Sc as [->|[[-> H]|[(q & -> & _)|(q & -> & _)]]].
        - rewrite solo_root in Es. unfold to_root in Es. destruct (get_last_root_node _); [discriminate|]. destruct (nextpath (w_rows W)); discriminate.
        - rewrite solo_choosing in Es by auto. unfold to_root in Es. destruct (nextpath (w_rows W)); discriminate.
        - rewrite solo_inserting in Es. destruct (existsb _ _); [discriminate|]. injection Es as ->.
          assert (np = np') by congruence. subst np'. unfold waits in Wt. cbn [inserting x_prog pending x_writes existsb written] in Wt.
          unfold lt_same in Wt. cbn [newrow l_path l_pk] in Wt. rewrite (proj2 (peq_iff _ _) eq_refl), !orb_true_r in Wt. discriminate.
        - rewrite solo_pending in Es. discriminate. }
      intros j l x z np np' N Ed Ef. rewrite !nth_set_nth.
      destruct (Nat.eqb_spec j i) as [->|Nj]; destruct (Nat.eqb_spec l i) as [->|Nk]; [lia| | |apply (I8 j l x z); auto].
      * rewrite Ey. cbn [option_map]. intros E Ez. injection E as E. rewrite Ec in Ed. injection Ed as ->. eapply K; eauto.
      * rewrite Ey. cbn [option_map]. intros Ez E. injection E as E. rewrite Ec in Ef. injection Ef as ->. eapply K; eauto.
  - (* ends *)
    assert (I' := I). destruct I' as [I1 I2 I3 I4 I5 I6 I7 I8].
    assert (Ni : ~ In i (map fst (w_log W))) by (rewrite I5; congruence).
    assert (D : (e = None /\ grow_exec (w_rows W) c = Ok rows) \/
      exists f, e = Some f /\ rows = w_rows W /\ serial (w_log W ++ [(i, Some f)]) (w_rows W)).
    { destruct e as [f|].
      - right. exists f. assert (rows = w_rows W) by (eapply solo_failed; eauto). subst rows. split; auto. split; auto.
        destruct c as [k x|x].
        + eapply serial_fail; eauto. apply (child_end _ k x y _ _ Ht Rc Sc Es).
        + destruct Sc as [->|[[-> H]|[(np & -> & H)|(np & -> & _)]]].
          * rewrite solo_root in Es. destruct (get_last_root_node _); [discriminate|]. unfold to_root in Es.
            destruct (nextpath (w_rows W)) as [np|g] eqn:En; [discriminate|]. injection Es as <-.
            eapply serial_fail; eauto. rewrite root_eq, En by auto. reflexivity.
          * rewrite solo_choosing in Es by auto. unfold to_root in Es.
            destruct (nextpath (w_rows W)) as [np|g] eqn:En; [discriminate|]. injection Es as <-.
            eapply serial_fail; eauto. rewrite root_eq, En by auto. reflexivity.
          * rewrite solo_inserting in Es. destruct (existsb _ _) eqn:Ex; [|discriminate]. injection Es as <-.
            destruct H as [H|(_ & j & z & Hj & Ej)].
            -- eapply serial_fail; eauto. rewrite root_eq, H by auto. cbn [bind]. rewrite Ex. reflexivity.
            -- eapply serial_clash; eauto.
          * rewrite solo_pending in Es. discriminate.
      - left. split; auto. destruct c as [k x|x].
        + apply (child_end _ k x y _ _ Ht Rc Sc Es).
        + destruct Sc as [->|[[-> H]|[(np & -> & H)|(np & -> & H & Ex)]]].
          * rewrite solo_root in Es. unfold to_root in Es. destruct (get_last_root_node _); [discriminate|]. destruct (nextpath _); discriminate.
          * rewrite solo_choosing in Es by auto. unfold to_root in Es. destruct (nextpath _); discriminate.
          * rewrite solo_inserting in Es. destruct (existsb _ _); discriminate.
          * rewrite solo_pending in Es. injection Es as <-. rewrite root_eq, H by auto. cbn [bind]. rewrite Ex. reflexivity. }
    assert (Kr : forall j d z, j <> i -> nth_error calls j = Some d -> nth_error (w_txs W) j = Some (Some z) ->
       fresh rows d /\ state (w_log W ++ [(i, e)]) rows d z).
    { intros j d z N Ed Ez. destruct (I6 j z Ez) as (d' & Ed' & Rd & Sd). rewrite Ed in Ed'. injection Ed' as <-.
      destruct D as [[-> Ex]|(f & -> & -> & _)]; [|split; auto; apply state_log; auto].
      destruct (grow_ok _ c rows Ht Rc Ex) as (np & Er & Ep).
      assert (Ap : nid (grown_by c) <> nid (grown_by d)) by (apply (all_apart i j c d); auto).
      assert (Fd : fresh rows d).
      { unfold fresh. rewrite Er. cbn [map newrow l_pk]. intros [H|H]; [congruence|apply Rd; auto]. }
      split; auto. destruct d as [k' x'|x'].
      - destruct Sd as [->|Sd]; [left; auto|]. destruct c as [k x|x].
        + destruct (I7 i j k x k' x' y z (not_eq_sym N) Ec Ed Ey Ez) as [->|[->|C]].
          * exfalso. apply (s_start _ _ _ _ _ _ _ _ _ _ SZ (w_rows W) (k, x) rows). auto.
          * left. auto.
          * right. apply (reach_mid cfg rows k' x' z).
            apply (s_stable _ _ _ _ _ _ _ _ _ _ SZ (w_rows W) rows (k', x') (k, x) z Ht Rd Rc); auto.
            -- unfold apart. cbn in *. auto.
            -- unfold compat. cbn. auto.
            -- apply (mid_reach cfg _ k' x' z Ht Sd).
        + right. rewrite Er. destruct (nextpath_one _ _ Ep) as [l ->]. eapply mid_root; eauto.
      - destruct c as [k x|x].
        + destruct Ep as (nd & Hn & _ & Ep).
          assert (En : nextpath rows = nextpath (w_rows W)) by (rewrite Er; eapply nextpath_child; eauto).
          assert (El : get_last_root_node rows = get_last_root_node (w_rows W)).
          { rewrite Er. unfold get_last_root_node. f_equal. destruct (newpath_parent cfg _ nd np Ep) as [l ->].
            assert (Q := path_some _ _ nd St Hn). unfold get_root_nodes. cbn [filter newrow l_path]. rewrite app_length.
            replace (length (l_path nd) + length [l] =? 1) with false; auto. symmetry. apply Nat.eqb_neq. destruct (l_path nd); [congruence|]. cbn. lia. }
          destruct Sd as [->|[[-> H]|[(q & -> & H)|(q & -> & H & Eq)]]];
            [left; auto|right; left|right; right; left|right; right; right].
          * split; auto. congruence.
          * exists q. split; auto. destruct H as [H|[H1 (a & b & H2 & H3)]]; [left; congruence|].
            right. split; [rewrite Er; right; auto|]. exists a, b. split; auto. apply in_or_app. auto.
          * exists q. split; auto. split; [congruence|]. rewrite Er. cbn [existsb]. rewrite Eq, orb_false_r.
            destruct (nextpath_one _ _ H) as [l ->]. apply (root_child (w_rows W) G nd x x' l np); auto.
        + destruct Sc as [->|[[-> H]|[(q & -> & H)|(q & -> & H & Eq)]]].
          * rewrite solo_root in Es. unfold to_root in Es. destruct (get_last_root_node _); [discriminate|]. destruct (nextpath _); discriminate.
          * rewrite solo_choosing in Es by auto. unfold to_root in Es. destruct (nextpath _); discriminate.
          * rewrite solo_inserting in Es. destruct (existsb _ _); discriminate.
          * assert (q = np) by congruence. subst q.
            destruct Sd as [->|[[-> Hl]|[(q & -> & Hq)|(q & -> & Hq & _)]]]; [left; auto|right; left|right; right; left|exfalso].
            -- split; auto. rewrite Er. unfold get_last_root_node, get_root_nodes. destruct (nextpath_one _ _ Ep) as [l ->].
               cbn [filter newrow l_path length Nat.eqb]. cbn [grown_by].
               intros Q. assert (Hi : In (newrow x [l]) (order_path (newrow x [l] :: filter (fun r => length (l_path r) =? 1) (w_rows W)))).
               { apply (Permutation_in _ (Permutation_sym (isort_perm _ _))). left. auto. }
               destruct (order_path _) as [|a b] using rev_ind; [destruct Hi|]. unfold newrow in Q. rewrite last_opt_app in Q. discriminate.
            -- exists q. split; auto. right. destruct Hq as [Hq|[H1 (a & b & H2 & H3)]].
               ++ assert (q = np) by congruence. subst q. split; [rewrite Er; left; auto|]. exists i, x. split; auto. apply in_or_app. right. left. auto.
               ++ split; [rewrite Er; right; auto|]. exists a, b. split; auto. apply in_or_app. auto.
            -- apply (I8 i j x x' np q); auto. }
    split; cbn [w_rows w_txs w_log].
    + destruct D as [[-> Ex]|(f & -> & -> & H)]; auto. eapply serial_ok; eauto.
    + unfold succeeded. rewrite flat_map_app. cbn [flat_map fst snd]. rewrite Ec.
      destruct D as [[-> Ex]|(f & -> & -> & H)]; rewrite !app_nil_r; auto.
      rewrite fold_left_app. cbn [fold_left]. apply (grow_stores _ _ _ _ I2 Rc Ex).
    + rewrite set_nth_length. auto.
    + rewrite map_app. cbn. apply (Permutation_NoDup (Permutation_cons_append _ _)). constructor; auto.
    + intros j. rewrite map_app, in_app_iff, nth_set_nth, I5. cbn.
      destruct (Nat.eqb_spec j i) as [->|N].
      * rewrite Ey. cbn. tauto.
      * split; [intros [H|[H|[]]]; auto; congruence|auto].
    + intros j z. rewrite nth_set_nth. destruct (Nat.eqb_spec j i) as [->|N]; [rewrite Ey; discriminate|].
      intros Ez. destruct (I6 j z Ez) as (d & Ed & _). exists d. split; auto. apply (Kr j); auto.
    + intros j l k x k' x' z z' N Ed Ef. rewrite !nth_set_nth.
      destruct (Nat.eqb_spec j i) as [->|Nj]; [rewrite Ey; discriminate|].
      destruct (Nat.eqb_spec l i) as [->|Nk]; [rewrite Ey; discriminate|]. apply I7; auto.
    + intros j l x z np np' N Ed Ef. rewrite !nth_set_nth.
      destruct (Nat.eqb_spec j i) as [->|Nj]; [rewrite Ey; discriminate|].
      destruct (Nat.eqb_spec l i) as [->|Nk]; [rewrite Ey; discriminate|]. apply (I8 j l x z); auto.
Qed.

Lemma inv_play W schedule : inv W -> inv (play l_pk lt_same W schedule).
Proof. revert W. induction schedule as [|i l IH]; intros W I; cbn; auto. apply IH, inv_step, I. Qed.

(** ** Everything can finish *)
Definition empty_handed (y : tx ltrow) : bool := match x_writes y, x_locks y with [], [] => true | _, _ => false end.
Definition is_pending (y : tx ltrow) : bool := match x_prog y, x_locks y with Commit, [] => true | _, _ => false end.

Lemma waits_empty y z : empty_handed z = true -> waits lt_same y z = false.
Proof.
  unfold empty_handed, waits. destruct (x_writes z), (x_locks z); try discriminate. intros _.
  destruct (x_prog y); auto; destruct (x_found y) as [l|]; auto; induction l; auto.
Qed.

Lemma find_tx (P : tx ltrow -> bool) (W : world ltrow) :
  (exists i y, nth_error (w_txs W) i = Some (Some y) /\ P y = true) \/
  (forall i y, nth_error (w_txs W) i = Some (Some y) -> P y = false).
Proof.
  destruct (existsb (fun o => match o with Some y => P y | None => false end) (w_txs W)) eqn:E.
  - left. apply existsb_exists in E. destruct E as ([y|] & Hy & E); [|discriminate].
    apply In_nth_error in Hy. destruct Hy as [i Hy]. eauto.
  - right. intros i y Ey. destruct (P y) eqn:Py; auto. exfalso. apply not_true_iff_false in E. apply E.
    apply existsb_exists. exists (Some y). split; auto. eapply nth_error_In; eauto.
Qed.


(** The transaction is not kept from going on until its end. *)
Definition unhindered (W : world ltrow) (i : nat) (y : tx ltrow) : Prop :=
  forall j z, j <> i -> nth_error (w_txs W) j = Some (Some z) -> empty_handed z = true \/
    exists k x k' x', nth_error calls i = Some (Child k x) /\ nth_error calls j = Some (Child k' x') /\
      mid (w_rows W) k x y /\ k <> k'.

Definition brought W i := exists l, nth_error (w_txs (play l_pk lt_same W l)) i = Some None /\
  forall j, j <> i -> nth_error (w_txs (play l_pk lt_same W l)) j = nth_error (w_txs W) j.

Lemma unhindered_free W i y : inv W -> nth_error (w_txs W) i = Some (Some y) -> unhindered W i y ->
  blocked lt_same W i y = false.
Proof.
  intros I Ey U. apply blocked_false. intros j z N Ez. destruct (holds_stores _ _ (v_stores W I)) as [G St].
  assert (Ht := stores_ok cfg _ _ St).
  destruct (U j z N Ez) as [H|(k & x & k' & x' & Ec & Ed & M & Nk)]; [apply waits_empty; auto|].
  destruct (v_run W I i y Ey) as (c & Ec' & Rc & _). rewrite Ec in Ec'. injection Ec' as <-.
  destruct (v_run W I j z Ez) as (d & Ed' & Rd & Sd). rewrite Ed in Ed'. injection Ed' as <-.
  destruct Sd as [->|Sd]; [apply waits_begin|].
  apply (s_free _ _ _ _ _ _ _ _ _ _ SZ (w_rows W) (k, x) (k', x') y z Ht Rc Rd); auto.
  - apply (all_apart i j (Child k x) (Child k' x')); auto.
  - apply (mid_reach cfg _ k x y Ht M).
  - apply (mid_reach cfg _ k' x' z Ht Sd).
Qed.

Lemma step_end W i y rows e : nth_error (w_txs W) i = Some (Some y) -> blocked lt_same W i y = false ->
  solo (w_rows W) y = End rows e -> brought W i.
Proof.
  intros Ey B Es. exists [i]. cbn. unfold ConcModel.step. rewrite Ey, B, Es. cbn. split.
  - rewrite nth_set_nth, Nat.eqb_refl, Ey. reflexivity.
  - intros j N. rewrite nth_set_nth. apply Nat.eqb_neq in N. rewrite N. auto.
Qed.

Lemma step_go W i y y' : inv W -> nth_error (w_txs W) i = Some (Some y) -> unhindered W i y ->
  solo (w_rows W) y = Go y' ->
  (forall W', inv W' -> nth_error (w_txs W') i = Some (Some y') -> unhindered W' i y' -> brought W' i) -> brought W i.
Proof.
  intros I Ey U Es K. assert (I' := inv_step W i I). revert I'.
  unfold ConcModel.step. rewrite Ey, (unhindered_free W i y I Ey U), Es. intros I'.
  destruct (holds_stores _ _ (v_stores W I)) as [G St]. assert (Ht := stores_ok cfg _ _ St).
  destruct (K _ I') as (l & E1 & E2).
  - cbn. rewrite nth_set_nth, Nat.eqb_refl, Ey. reflexivity.
  - intros j z N. cbn. rewrite nth_set_nth. rewrite (proj2 (Nat.eqb_neq j i) N). intros Ez.
    destruct (U j z N Ez) as [H|(k & x & k' & x' & Ec & Ed & M & Nk)]; auto. right. exists k, x, k', x'. split; auto. split; auto.
    split; auto. apply (child_go (w_rows W) k x y y' Ht); auto.
  - exists (i :: l). cbn. unfold ConcModel.step at 2 4. rewrite Ey, (unhindered_free W i y I Ey U), Es. split; auto.
    intros j N. etransitivity; [apply (E2 j N)|]. cbn.
    rewrite nth_set_nth. apply Nat.eqb_neq in N. rewrite N. auto.
Qed.

Lemma run_out p : forall W i x, x_prog x = p -> inv W -> nth_error (w_txs W) i = Some (Some x) -> unhindered W i x ->
  brought W i.
Proof.
  assert (En : forall W i x rows e, inv W -> nth_error (w_txs W) i = Some (Some x) -> unhindered W i x ->
    solo (w_rows W) x = End rows e -> brought W i).
  { intros W i x rows e I Ex U Es. eapply step_end; eauto. apply unhindered_free; auto. }
  assert (G : forall q, (forall W i x, x_prog x = q -> inv W -> nth_error (w_txs W) i = Some (Some x) -> unhindered W i x -> brought W i) ->
    forall W i x ws ls, inv W -> nth_error (w_txs W) i = Some (Some x) -> unhindered W i x ->
    solo (w_rows W) x = goes (w_rows W) q ws ls -> brought W i).
  { intros q IH W i x ws ls I Ex U Es. unfold goes in Es.
    assert (K : solo (w_rows W) x = Go (mkTx q ws ls None) -> brought W i).
    { intros E. apply (step_go W i x _ I Ex U E). intros W' I' Ex' U'. apply (IH W' i _ (eq_refl : x_prog (mkTx q ws ls None) = q) I' Ex' U'). }
    destruct q; auto. eapply En; eauto. }
  induction p as [|e|k c IH|c IH|sel f c IH|sel c IH|r c IH]; intros W i x Ep I Ex U.
  - eapply En; eauto. unfold ConcModel.solo. rewrite Ep. reflexivity.
  - eapply En; eauto. unfold ConcModel.solo. rewrite Ep. reflexivity.
  - eapply (G _ (IH _)); eauto. unfold ConcModel.solo. rewrite Ep. reflexivity.
  - eapply (G _ (IH _)); eauto. unfold ConcModel.solo. rewrite Ep. reflexivity.
  - assert (K : forall W ks x, x_prog x = Update sel f c -> x_found x = Some ks -> inv W -> nth_error (w_txs W) i = Some (Some x) ->
      unhindered W i x -> brought W i).
    { clear W x Ep I Ex U. intros W ks x Ep Ef I Ex U. eapply (G _ IH); eauto. unfold ConcModel.solo. rewrite Ep, Ef. reflexivity. }
    destruct (x_found x) as [ks|] eqn:Ef; [eapply K; eauto|].
    eapply step_go; eauto.
    + unfold ConcModel.solo. rewrite Ep, Ef. reflexivity.
    + intros W' I' Ex' U'. eapply K; [| |exact I'|exact Ex'|exact U']; reflexivity.
  - assert (K : forall W ks x, x_prog x = Delete sel c -> x_found x = Some ks -> inv W -> nth_error (w_txs W) i = Some (Some x) ->
      unhindered W i x -> brought W i).
    { clear W x Ep I Ex U. intros W ks x Ep Ef I Ex U. eapply (G _ IH); eauto. unfold ConcModel.solo. rewrite Ep, Ef. reflexivity. }
    destruct (x_found x) as [ks|] eqn:Ef; [eapply K; eauto|].
    eapply step_go; eauto.
    + unfold ConcModel.solo. rewrite Ep, Ef. reflexivity.
    + intros W' I' Ex' U'. eapply K; [| |exact I'|exact Ex'|exact U']; reflexivity.
  - destruct (existsb (lt_same r) (visible l_pk (w_rows W) x)) eqn:Eb.
    + eapply En; eauto. unfold ConcModel.solo. rewrite Ep, Eb. reflexivity.
    + eapply (G _ IH); eauto. unfold ConcModel.solo. rewrite Ep, Eb. reflexivity.
Qed.

Lemma can_bring W : inv W -> running _ W <> 0 -> exists i y, nth_error (w_txs W) i = Some (Some y) /\ brought W i.
Proof.
  intros I Fi.
  destruct (find_tx is_pending W) as [(i & y & Ey & P)|NP].
  { exists i, y. split; auto. unfold is_pending in P. destruct (x_prog y) eqn:Ep; try discriminate.
    eapply step_end; eauto; [|unfold ConcModel.solo; rewrite Ep; reflexivity].
    apply blocked_false. intros j z _ _. unfold waits. rewrite Ep. reflexivity. }
  destruct (find_tx (fun y => negb (empty_handed y)) W) as [(i & y & Ey & P)|NH].
  { exists i, y. split; auto. apply (run_out (x_prog y) W i y eq_refl I Ey). intros j z Nj Ez.
    destruct (v_run W I i y Ey) as (c & Ec & Rc & Sc). destruct (v_run W I j z Ez) as (d & Ed & Rd & Sd).
    apply negb_true_iff in P.
    destruct c as [k x|x]; [|destruct Sc as [->|[[-> _]|[(np & -> & _)|(np & -> & _)]]]; try discriminate].
    2:{ specialize (NP i _ Ey). discriminate. }
    destruct Sc as [->|Sc]; [discriminate|].
    destruct d as [k' x'|x']; [|destruct Sd as [->|[[-> _]|[(np & -> & _)|(np & -> & _)]]]; auto].
    2:{ specialize (NP j _ Ez). discriminate. }
    destruct Sd as [->|Sd]; auto.
    destruct (v_pair W I i j k x k' x' y z (not_eq_sym Nj) Ec Ed Ey Ez) as [->|[->|C]]; [discriminate|auto|].
    right. exists k, x, k', x'. auto. }
  destruct (some_running _ W Fi) as (i & y & Ey). exists i, y. split; auto.
  apply (run_out (x_prog y) W i y eq_refl I Ey). intros j z _ Ez. left.
  specialize (NH j z Ez). apply negb_false_iff in NH. auto.
Qed.

Lemma can_finish W : inv W -> exists schedule, finished (play l_pk lt_same W schedule) = true.
Proof.
  remember (running _ W) as n eqn:En. revert W En. induction n as [|n IH]; intros W En I.
  - exists []. apply none_running. auto.
  - destruct (can_bring W I ltac:(lia)) as (i & y & Ey & l & E1 & E2). assert (I' := inv_play W l I).
    assert (EL : length (w_txs (play l_pk lt_same W l)) = length (w_txs W)) by (rewrite (v_len _ I'), (v_len _ I); auto).
    assert (H := brought_fewer _ _ _ i y EL Ey E1 E2).
    destruct (IH (play l_pk lt_same W l)) as (l' & E); auto.
    + unfold running in *. lia.
    + exists (l ++ l'). unfold ConcModel.play in *. rewrite fold_left_app. auto.
Qed.

Theorem roots_concurrent schedule :
  let W := play l_pk lt_same (all_begin t0 (map begun calls)) schedule in
  serial (w_log W) (w_rows W) /\ NoDup (map fst (w_log W)) /\
  holds (w_rows W) (fold_left grow (succeeded calls (w_log W)) F0) /\
  (finished W = true -> Permutation (map fst (w_log W)) (seq 0 (length calls))) /\
  exists schedule', finished (play l_pk lt_same W schedule') = true.
Proof.
  intros W. assert (I : inv W) by (apply inv_play, inv_begin). 
  split; [apply (v_serial W I)|]. split; [apply (v_nodup W I)|]. split; [apply (v_stores W I)|]. split.
  - intros Fi. apply NoDup_Permutation; [apply (v_nodup W I)|apply seq_NoDup|].
    intros i. rewrite (v_done W I), in_seq, <- (v_len W I). split; intros H.
    + split; [lia|]. cbn. apply nth_error_Some. congruence.
    + destruct (nth_error (w_txs W) i) as [[y|]|] eqn:E; auto.
      * exfalso. unfold finished in Fi. rewrite forallb_forall in Fi. apply nth_error_In in E. specialize (Fi _ E). discriminate.
      * apply nth_error_None in E. lia.
  - apply can_finish; auto.
Qed.

Lemma serial_facts l t : serial l t -> NoDup (map fst l) ->
  holds t (fold_left grow (succeeded calls l) F0) /\
  forall i c, nth_error calls i = Some c -> ~ In (i, None) l -> fresh t c.
Proof.
  assert (Sn : forall (l : list (nat * option exn)) a, NoDup (map fst (l ++ [a])) -> NoDup (map fst l) /\ ~ In (fst a) (map fst l)).
  { clear. intros l a H. rewrite map_app in H. cbn in H. apply (Permutation_NoDup (Permutation_sym (Permutation_cons_append _ _))) in H.
    apply NoDup_cons_iff in H. tauto. }
  intros H. induction H as [|l t i c t' H IH Ec E|l t i c e H IH Ec E|l t i x j z H IH Ei Hj Ej]; intros N.
  - split; [apply (v_stores _ inv_begin)|]. intros i c Ec _. apply fresh0. eapply nth_error_In; eauto.
  - apply Sn in N. destruct N as [N Ni]. destruct (IH N) as [St Fr].
    assert (Rc : fresh t c). { apply (Fr i); auto. intros Q. apply Ni. apply in_map_iff. exists (i, None). auto. }
    split.
    + unfold succeeded. rewrite flat_map_app. cbn [flat_map fst snd]. rewrite Ec, app_nil_r, fold_left_app. cbn [fold_left].
      apply (grow_stores _ _ _ _ St Rc E).
    + intros j d Ed Nj. destruct (holds_stores _ _ St) as [G SG]. destruct (grow_ok t c t' (stores_ok cfg _ _ SG) Rc E) as (np & -> & _). unfold fresh. cbn [map newrow l_pk]. intros [Q|Q].
      * apply (all_apart i j c d); auto. intros ->. apply Nj. apply in_or_app. right. left. auto.
      * apply (Fr j d Ed); auto. intros Q'. apply Nj. apply in_or_app. auto.
  - apply Sn in N. destruct N as [N Ni]. destruct (IH N) as [St Fr]. split.
    + unfold succeeded. rewrite flat_map_app. cbn [flat_map fst snd]. rewrite !app_nil_r. auto.
    + intros j d Ed Nj. apply (Fr j d Ed). intros Q'. apply Nj. apply in_or_app. auto.
  - apply Sn in N. destruct N as [N Ni]. destruct (IH N) as [St Fr]. split.
    + unfold succeeded. rewrite flat_map_app. cbn [flat_map fst snd]. rewrite !app_nil_r. auto.
    + intros k d Ed Nk. apply (Fr k d Ed). intros Q'. apply Nk. apply in_or_app. auto.
Qed.

(** With one add_root only, no call fails because of the others. *)
Lemma serial_one_root l t : serial l t -> NoDup (map fst l) ->
  (forall i j c d, nth_error calls i = Some c -> nth_error calls j = Some d -> is_root_call c -> is_root_call d -> i = j) ->
  one_by_one grow_exec calls t0 (map fst l) = (t, l).
Proof.
  assert (Sn : forall (l : list (nat * option exn)) a, NoDup (map fst (l ++ [a])) -> NoDup (map fst l) /\ ~ In (fst a) (map fst l)).
  { clear. intros l a H. rewrite map_app in H. cbn in H. apply (Permutation_NoDup (Permutation_sym (Permutation_cons_append _ _))) in H.
    apply NoDup_cons_iff in H. tauto. }
  intros H. induction H as [|l t i c t' H IH Ec E|l t i c e H IH Ec E|l t i x j z H IH Ei Hj Ej]; intros N O; auto;
    apply Sn in N; destruct N as [N Ni].
  - rewrite map_app, one_by_one_app, (IH N O). cbn [map fst one_by_one]. rewrite Ec, E. auto.
  - rewrite map_app, one_by_one_app, (IH N O). cbn [map fst one_by_one]. rewrite Ec, E. auto.
  - exfalso. apply Ni. cbn. replace i with j by (apply (O j i (Root z) (Root x)); cbn; auto).
    apply in_map_iff. exists (j, None). auto.
Qed.
End LT.
