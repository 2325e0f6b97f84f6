(** Concurrent add_root and add_child calls on materialized path trees without node_order_by
    (C81). *)
From Coq Require Import List Arith Lia Bool ZArith Permutation.
From Verif Require Import Prelude Forest SpecFacts SpecSane CommonModel Order History
  MPModel MPStep MPInv MPAdd MPReads MPHist MPRoom PropsMP CrashFacts ConcModel ConcRun ConcMP.
Import ListNotations.
Local Open Scope nat_scope.

(** A call: add_child on the node with the given primary key, or add_root.
    /repo/treebeard/mp_tree.py:339-434 *)
Inductive growth := Child (k : nat) (x : node) | Root (x : node).
Definition grown_by (c : growth) : node := match c with Child _ x | Root x => x end.
Definition is_root_call (c : growth) : Prop := match c with Child _ _ => False | Root _ => True end.
(** What the calls do to the forest. *)
Definition grow (F : forest node) (c : growth) : forest node :=
  match c with Child k x => sp_add_child None k x F | Root x => sp_add_root None x F end.

Section MP.
Variable cfg : mp_cfg.
Hypothesis radix2 : 2 <= radix cfg.
Hypothesis step1 : 1 <= steplen cfg.
Hypothesis unsorted : order_by cfg = [].
Notation stores := (stores cfg).
Notation newpath := (newpath cfg).
Notation mid := (mid cfg).
Notation solo := (solo m_pk mp_same).

(** The transaction of a call: /repo/treebeard/mp_tree.py:339-434 *)
Definition begun (c : growth) : prog mprow := match c with Child k x => mp_add_child cfg k x | Root x => mp_add_root cfg x end.
(** The call alone: /repo/treebeard/mp_tree.py:339-434 *)
Definition grow_exec (t : mp_table) (c : growth) : res mp_table :=
  do db <- mp_exec cfg (mkDB t []) (match c with Child k x => CAddChild k x | Root x => CAddRoot x end); Ok (db_rows db).

(** The path of a new root: /repo/treebeard/mp_tree.py:345-371 *)
Definition nextpath (t : mp_table) : res path :=
  match get_last_root_node t with Some last => inc_path cfg (m_path last) | None => Ok (get_path cfg [] 1 1) end.

Definition fresh (t : mp_table) (c : growth) : Prop := ~ In (nid (grown_by c)) (map m_pk t).

Lemma root_cases t F x : stores t F -> fresh t (Root x) ->
  (nextpath t = Err PathOverflow /\ grow_exec t (Root x) = Err PathOverflow) \/
  exists np, nextpath t = Ok np /\ grow_exec t (Root x) = Ok (mp_new x np 1 :: t) /\
    existsb (mp_same (mp_new x np 1)) t = false /\ stores (mp_new x np 1 :: t) (sp_add_root None x F).
Proof.
  intros St Rd. unfold fresh in Rd. cbn [grown_by] in Rd. set (X := mkNew (nid x) 0 (ndata x)).
  assert (Fx : ~ In (new_pk X) (ids F)) by (rewrite (ids_iff cfg t F _ St); auto).
  assert (Ns := not_sorted cfg unsorted).
  assert (H := add_root_ok cfg radix2 step1 (mkDB t []) F X St Fx eq_refl). cbv zeta in H.
  assert (H' := H ltac:(rewrite Ns; discriminate)). clear H. rename H' into H.
  assert (A : add_root cfg (mkDB t []) X =
    do np <- nextpath t; do db <- save_row (mkDB t []) (mp_new x np 1); Ok (db, mp_new x np 1)).
  { unfold add_root, nextpath. cbn [db_rows]. rewrite Ns. destruct (get_last_root_node t); reflexivity. }
  unfold grow_exec, mp_exec. fold X. rewrite A in H |- *. clear A.
  destruct (nextpath t) as [np|e]; cbn [bind] in H |- *.
  2:{ left. destruct H as [(db' & r' & H & _)|[H _]]; [discriminate|]. injection H as ->. auto. }
  right. exists np. split; auto. set (r := mp_new x np 1) in *.
  assert (Npk : existsb (fun a => m_pk a =? m_pk r) t = false).
  { apply not_true_iff_false. intros Ex. apply existsb_exists in Ex. destruct Ex as (a & Ha & Ea).
    apply Nat.eqb_eq in Ea. apply Rd. cbn in Ea. rewrite <- Ea. apply in_map. auto. }
  unfold save_row in H |- *. cbn [db_rows db_sig] in H |- *. rewrite Npk in H |- *.
  destruct (existsb (fun a => peq (m_path a) (m_path r) && negb (m_pk a =? m_pk r)) t) eqn:Ec; cbn [bind] in H |- *.
  { exfalso. destruct H as [(db' & r' & H & _)|[H _]]; discriminate. }
  destruct H as [(db' & r' & H & _ & _ & _ & S')|[H _]]; [|discriminate].
  split; auto. split.
  - apply not_true_iff_false. intros Ex. apply existsb_exists in Ex. destruct Ex as (a & Ha & Ea).
    unfold mp_same in Ea. apply orb_true_iff in Ea.
    assert (Na : m_pk a =? m_pk r = false).
    { apply not_true_iff_false. intros Q. apply not_true_iff_false in Npk. apply Npk. apply existsb_exists. eauto. }
    destruct Ea as [Ea|Ea]; [rewrite Nat.eqb_sym in Ea; congruence|].
    apply not_true_iff_false in Ec. apply Ec. apply existsb_exists. exists a. split; auto. rewrite Na.
    apply peq_iff in Ea. rewrite Ea. rewrite (proj2 (peq_iff _ _) eq_refl). auto.
  - injection H as H1 H2. rewrite <- H1 in S'. cbn [db_rows] in S'.
    assert (E : opt_gt cfg X = None) by (unfold opt_gt; rewrite Ns; auto). rewrite E in S'.
    replace (mkNode (new_pk X) (new_data X)) with x in S' by (destruct x; auto). auto.
Qed.

Lemma depth_pos t F r : stores t F -> In r t -> 1 <= m_depth r.
Proof.
  intros (f & L & _) H. destruct (lay_in cfg _ _ _ L H) as (x & Hx & ->).
  destruct L as (W & _). apply (depth_spec cfg radix2 step1 f x W Hx).
Qed.

Lemma nextpath_child t F nd x np k : stores t F -> In nd t ->
  nextpath (mp_new x np (m_depth nd + 1) :: map (upd_nc_pk k S) t) = nextpath t.
Proof.
  intros St Hn. assert (D := depth_pos t F nd St Hn).
  unfold nextpath, get_last_root_node, get_root_nodes. cbn [filter mp_new m_depth].
  replace (m_depth nd + 1 =? 1) with false by (symmetry; apply Nat.eqb_neq; lia).
  rewrite (filter_map_in (upd_nc_pk k S) (fun r => m_depth r =? 1) (fun r => m_depth r =? 1)).
  2:{ intros a _. unfold upd_nc_pk. destruct (m_pk a =? k); auto. }
  unfold order_path. rewrite (isort_map (le_key m_path plt)).
  2:{ intros a b _ _. unfold le_key, upd_nc_pk. destruct (m_pk a =? k), (m_pk b =? k); auto. }
  rewrite last_opt_map. destruct (last_opt _) as [l|]; auto. cbn [option_map]. unfold upd_nc_pk.
  destruct (m_pk l =? k); auto.
Qed.

Lemma newpath_root t F nd x np : stores t F -> In nd t -> newpath (mp_new x np 1 :: t) nd = newpath t nd.
Proof.
  intros St Hn. assert (D := depth_pos t F nd St Hn).
  unfold ConcMP.newpath, get_last_child, get_children. destruct (is_leaf nd); auto. cbn [filter mp_new m_depth].
  replace (1 =? m_depth nd + 1) with false by (symmetry; apply Nat.eqb_neq; lia). reflexivity.
Qed.

Lemma mid_root t F k x z np y : stores t F -> mid t k x y -> mid (mp_new z np 1 :: t) k x y.
Proof.
  intros St [nd Hn Ek El|nd np' fo Hn Ek En Hf|nd np' Hn Ek En|nd np' Hn Ek En]; 
    [apply mid_select|apply mid_update|apply mid_insert|apply mid_commit]; auto; try (right; auto; fail);
    rewrite (newpath_root t F nd z np St Hn); auto.
Qed.

Variable calls : list growth.
Variable t0 : mp_table.
Variable F0 : forest node.

(** The calls one after the other, in the order of the log; an add_root may fail because
    another one has taken its path. *)
Inductive serial : list (nat * option exn) -> mp_table -> Prop :=
| serial_nil : serial [] t0
| serial_ok l t i c t' : serial l t -> nth_error calls i = Some c -> grow_exec t c = Ok t' -> serial (l ++ [(i, None)]) t'
| serial_fail l t i c e : serial l t -> nth_error calls i = Some c -> grow_exec t c = Err e -> serial (l ++ [(i, Some e)]) t
| serial_clash l t i x j z : serial l t -> nth_error calls i = Some (Root x) ->
    In (j, None) l -> nth_error calls j = Some (Root z) -> serial (l ++ [(i, Some IntegrityError)]) t.

Hypothesis all_apart : forall i j c d, i <> j -> nth_error calls i = Some c -> nth_error calls j = Some d ->
  nid (grown_by c) <> nid (grown_by d).
Hypothesis stores0 : stores t0 F0.
Hypothesis fresh0 : forall c, In c calls -> fresh t0 c.

Definition taken (log : list (nat * option exn)) (t : mp_table) (np : path) : Prop :=
  In np (map m_path t) /\ exists j z, In (j, None) log /\ nth_error calls j = Some (Root z).
Definition inserting (x : node) (np : path) : tx mprow := mkTx (Insert (mp_new x np 1) Commit) [] [] None.
Definition pending (x : node) (np : path) : tx mprow := mkTx Commit [New (mp_new x np 1)] [] None.

Definition state (log : list (nat * option exn)) (t : mp_table) (c : growth) (y : tx mprow) : Prop :=
  match c with
  | Child k x => y = begin (begun c) \/ mid t k x y
  | Root x => y = begin (begun c) \/
      (exists np, y = inserting x np /\ (nextpath t = Ok np \/ taken log t np)) \/
      (exists np, y = pending x np /\ nextpath t = Ok np)
  end.

Record inv (W : world mprow) : Prop := {
  v_serial : serial (w_log W) (w_rows W);
  v_stores : stores (w_rows W) (fold_left grow (succeeded calls (w_log W)) F0);
  v_len : length (w_txs W) = length calls;
  v_nodup : NoDup (map fst (w_log W));
  v_done : forall i, In i (map fst (w_log W)) <-> nth_error (w_txs W) i = Some None;
  v_run : forall i y, nth_error (w_txs W) i = Some (Some y) ->
    exists c, nth_error calls i = Some c /\ fresh (w_rows W) c /\ state (w_log W) (w_rows W) c y;
  v_pair : forall i j k x k' x' y y', i <> j -> nth_error calls i = Some (Child k x) -> nth_error calls j = Some (Child k' x') ->
    nth_error (w_txs W) i = Some (Some y) -> nth_error (w_txs W) j = Some (Some y') ->
    y = begin (begun (Child k x)) \/ y' = begin (begun (Child k' x')) \/ k <> k';
  v_one : forall i j x z np np', i <> j -> nth_error calls i = Some (Root x) -> nth_error calls j = Some (Root z) ->
    nth_error (w_txs W) i = Some (Some (pending x np)) -> nth_error (w_txs W) j = Some (Some (pending z np')) -> False }.

Lemma inv_begin : inv (all_begin t0 (map begun calls)).
Proof.
  unfold all_begin. split; cbn.
  - apply serial_nil.
  - apply stores0.
  - rewrite !map_length. auto.
  - constructor.
  - intros i. split; [intros []|]. intros E. apply nth_error_In in E. apply in_map_iff in E. destruct E as (p & E & _). discriminate.
  - intros i x E. rewrite map_map in E. rewrite nth_error_map in E.
    destruct (nth_error calls i) as [c|] eqn:Ec; [|discriminate]. cbn in E. injection E as E. exists c.
    split; auto. split; [apply fresh0; eapply nth_error_In; eauto|]. destruct c; left; auto.
  - intros i j k x k' x' y y' N Ec Ed Ex Ey. left. rewrite map_map in Ex. rewrite nth_error_map in Ex. rewrite Ec in Ex.
    cbn in Ex. congruence.
  - intros i j x z np np' N Ec Ed Ex Ey. rewrite map_map, nth_error_map, Ec in Ex. discriminate.
Qed.

Lemma solo_root t x : solo t (begin (begun (Root x))) =
  match nextpath t with Ok np => Go (inserting x np) | Err e => End t (Some e) end.
Proof.
  unfold ConcModel.solo, begin, begun, mp_add_root, visible, nextpath. cbn [x_prog x_writes x_locks x_found fold_left].
  rewrite (not_sorted cfg unsorted). destruct (get_last_root_node t) as [l|]; auto.
  destruct (inc_path cfg (m_path l)); auto.
Qed.

Lemma solo_inserting t x np : solo t (inserting x np) =
  if existsb (mp_same (mp_new x np 1)) t then End t (Some IntegrityError) else Go (pending x np).
Proof. reflexivity. Qed.

Lemma solo_pending t x np : solo t (pending x np) = End (mp_new x np 1 :: t) None.
Proof. reflexivity. Qed.

Lemma taken_clash log t x np : taken log t np -> existsb (mp_same (mp_new x np 1)) t = true.
Proof.
  intros [H _]. apply in_map_iff in H. destruct H as (a & E & Ha). apply existsb_exists. exists a. split; auto.
  unfold mp_same. cbn [mp_new m_path]. rewrite E, (proj2 (peq_iff _ _) eq_refl). apply orb_true_r.
Qed.

Notation SZ := (mp_serializable cfg radix2 step1 unsorted).
Notation reach := (reach mprow m_pk mp_same (nat * node) (start cfg)).

Lemma child_go t F k x y y' : stores t F -> fresh t (Child k x) -> y = begin (begun (Child k x)) \/ mid t k x y ->
  solo t y = Go y' -> mid t k x y'.
Proof.
  intros St Rd H E. apply (reach_mid cfg radix2 step1 unsorted t F k x y' St Rd).
  destruct H as [->|H]; [apply reach_first; auto|].
  eapply reach_next; [apply (mid_reach cfg radix2 step1 unsorted t F k x y St Rd H)|auto].
Qed.

Lemma child_end t F k x y rows e : stores t F -> fresh t (Child k x) -> y = begin (begun (Child k x)) \/ mid t k x y ->
  solo t y = End rows e -> grow_exec t (Child k x) = match e with None => Ok rows | Some e => Err e end.
Proof.
  intros St Rd H E. apply (s_end _ _ _ _ _ _ _ _ _ _ SZ t (k, x) y rows e (ex_intro _ F St) Rd); auto.
  destruct H as [->|H]; [left; auto|right]. apply (mid_reach cfg radix2 step1 unsorted t F k x y St Rd H).
Qed.

Lemma child_ok t F k x t' : stores t F -> fresh t (Child k x) -> grow_exec t (Child k x) = Ok t' ->
  exists nd np, In nd t /\ t' = mp_new x np (m_depth nd + 1) :: map (upd_nc_pk k S) t /\ stores t' (sp_add_child None k x F).
Proof.
  intros St Rd E. destruct (exec_ok cfg radix2 step1 unsorted t F k x t' St Rd E) as (nd & np & H1 & _ & _ & H2 & H3). eauto.
Qed.

Lemma state_log log i e t c y : state log t c y -> state (log ++ [(i, e)]) t c y.
Proof.
  destruct c as [k x|x]; auto. intros [H|[(np & E & [H|[H1 (j & z & H2 & H3)]])|H]]; [left; auto|right; left|right; left|right; right; auto].
  - exists np. auto.
  - exists np. split; auto. right. split; auto. exists j, z. split; auto. apply in_or_app. auto.
Qed.

Lemma grow_stores t F c t' : stores t F -> fresh t c -> grow_exec t c = Ok t' -> stores t' (grow F c).
Proof.
  intros St Rd E. destruct c as [k x|x].
  - destruct (child_ok t F k x t' St Rd E) as (_ & _ & _ & _ & H). auto.
  - destruct (root_cases t F x St Rd) as [[_ E']|(np & _ & E' & _ & H)]; [congruence|].
    rewrite E in E'. injection E' as ->. auto.
Qed.

Lemma grow_rows t F c t' : stores t F -> fresh t c -> grow_exec t c = Ok t' ->
  map m_pk t' = nid (grown_by c) :: map m_pk t /\ forall p, In p (map m_path t) -> In p (map m_path t').
Proof.
  intros St Rd E. destruct c as [k x|x].
  - destruct (child_ok t F k x t' St Rd E) as (nd & np & _ & -> & _). cbn [map mp_new m_pk m_path grown_by]. split.
    + f_equal. rewrite map_map. apply map_ext. intros a. unfold upd_nc_pk. destruct (m_pk a =? k); auto.
    + intros p H. right. rewrite map_map. replace (map (fun r => m_path (upd_nc_pk k S r)) t) with (map m_path t); auto.
      apply map_ext. intros a. unfold upd_nc_pk. destruct (m_pk a =? k); auto.
  - destruct (root_cases t F x St Rd) as [[_ E']|(np & _ & E' & _ & H)]; [congruence|].
    rewrite E in E'. injection E' as ->. split; auto. intros p Hp. right. auto.
Qed.

Lemma inv_step W i : inv W -> inv (step m_pk mp_same W i).
Proof.
  intros I. unfold step. destruct (nth_error (w_txs W) i) as [[y|]|] eqn:Ey; auto.
  destruct (blocked mp_same W i y) eqn:Eb; auto. rewrite blocked_false in Eb.
  destruct (v_run W I i y Ey) as (c & Ec & Rc & Sc). assert (St := v_stores W I).
  destruct (solo (w_rows W) y) as [y'|rows e] eqn:Es.
  - (* goes on *)
    assert (Sc' : state (w_log W) (w_rows W) c y' /\ y' <> begin (begun c)).
    { destruct c as [k x|x].
      - assert (M := child_go _ _ k x y y' St Rc Sc Es). split; [right; auto|].
        apply (s_past _ _ _ _ _ _ _ _ _ _ SZ (w_rows W) (k, x) y' (ex_intro _ _ St) Rc).
        apply (mid_reach cfg radix2 step1 unsorted _ _ k x y' St Rc M).
      - destruct Sc as [->|[(np & -> & _)|(np & -> & _)]].
        + rewrite solo_root in Es. destruct (nextpath (w_rows W)) as [np|] eqn:En; [|discriminate].
          injection Es as <-. split; [|discriminate]. right. left. exists np. auto.
        + rewrite solo_inserting in Es. destruct (existsb _ _) eqn:Ex; [discriminate|]. injection Es as <-.
          split; [|discriminate]. right. right. exists np. split; auto.
          destruct (v_run W I i _ Ey) as (c' & Ec' & _ & Sc). rewrite Ec in Ec'. injection Ec' as <-.
          destruct Sc as [Sc|[(np' & E & H)|(np' & E & _)]]; [discriminate| |discriminate].
          injection E as <-. destruct H as [H|H]; auto. apply taken_clash with (x := x) in H. congruence.
        + rewrite solo_pending in Es. discriminate. }
    destruct Sc' as [Sc' Nb].
    assert (St' := St). destruct I as [I1 I2 I3 I4 I5 I6 I7 I8]. split; cbn [w_rows w_txs w_log]; auto.
    + rewrite set_nth_length. auto.
    + intros j. rewrite nth_set_nth. rewrite I5. destruct (Nat.eqb_spec j i) as [->|]; [|tauto].
      rewrite Ey. cbn. split; intros; discriminate.
    + intros j z. rewrite nth_set_nth. destruct (Nat.eqb_spec j i) as [->|]; [|apply I6].
      rewrite Ey. cbn. intros E. injection E as <-. exists c. auto.
    + assert (K : forall j k x k' x' z, j <> i -> c = Child k x -> nth_error calls j = Some (Child k' x') ->
         nth_error (w_txs W) j = Some (Some z) -> z = begin (begun (Child k' x')) \/ k <> k').
      { intros j k x k' x' z N -> Ed Ez. destruct (I6 j z Ez) as (d' & Ed' & Rd & Md). rewrite Ed in Ed'. injection Ed' as <-.
        destruct Md as [Md|Md]; auto.
        destruct (I7 i j k x k' x' y z (not_eq_sym N) Ec Ed Ey Ez) as [->|[->|C]]; auto.
        right. apply (s_first _ _ _ _ _ _ _ _ _ _ SZ (w_rows W) (k, x) (k', x') y' z (ex_intro _ _ St') Rc Rd); auto.
        - apply (all_apart i j (Child k x) (Child k' x')); auto.
        - apply (mid_reach cfg radix2 step1 unsorted _ _ k' x' z St' Rd Md).
        - apply (Eb j); auto. }
      intros j l k x k' x' z z' N Ed Ef. rewrite !nth_set_nth.
      destruct (Nat.eqb_spec j i) as [->|Nj]; destruct (Nat.eqb_spec l i) as [->|Nk]; [lia| | |apply I7; auto].
      * rewrite Ey. cbn [option_map]. intros E Ez. injection E as <-. rewrite Ec in Ed. injection Ed as ->.
        destruct (K l k x k' x' z' Nk eq_refl Ef Ez); auto.
      * rewrite Ey. cbn [option_map]. intros Ez E. injection E as <-. rewrite Ec in Ef. injection Ef as ->.
        destruct (K j k' x' k x z Nj eq_refl Ed Ez) as [H|H]; auto.
    + assert (K : forall j x z np np', j <> i -> c = Root x -> nth_error calls j = Some (Root z) -> y' = pending x np ->
         nth_error (w_txs W) j = Some (Some (pending z np')) -> False).
      { intros j x z np np' N -> Ed E Ez. assert (Wt := Eb j _ N Ez).
        destruct (I6 j _ Ez) as (d' & Ed' & _ & Sd). rewrite Ed in Ed'. injection Ed' as <-.
        destruct Sd as [Sd|[(q & E2 & _)|(q & E2 & Eq)]]; [discriminate|discriminate|]. injection E2 as <-.
        destruct Sc as [->|[(q & -> & _)|(q & -> & _)]].
        - rewrite solo_root in Es. destruct (nextpath (w_rows W)); [|discriminate]. injection Es as <-. discriminate.
        - destruct Sc' as [Sc'|[(q' & E2 & _)|(q' & E2 & Eq')]]; [subst y'; discriminate|subst y'; discriminate|].
          rewrite solo_inserting in Es. destruct (existsb _ _); [discriminate|]. injection Es as <-. injection E2 as <-.
          assert (q = np') by congruence. subst q. unfold waits in Wt. cbn [inserting x_prog pending x_writes existsb written] in Wt.
          unfold mp_same in Wt. cbn [mp_new m_path m_pk] in Wt. rewrite (proj2 (peq_iff _ _) eq_refl), !orb_true_r in Wt. discriminate.
        - rewrite solo_pending in Es. discriminate. }
      intros j l x z np np' N Ed Ef. rewrite !nth_set_nth.
      destruct (Nat.eqb_spec j i) as [->|Nj]; destruct (Nat.eqb_spec l i) as [->|Nk]; [lia| | |apply (I8 j l x z); auto].
      * rewrite Ey. cbn [option_map]. intros E Ez. injection E as E. rewrite Ec in Ed. injection Ed as ->. eapply K; eauto.
      * rewrite Ey. cbn [option_map]. intros Ez E. injection E as E. rewrite Ec in Ef. injection Ef as ->. eapply K; eauto.
  - (* ends *)
    assert (I' := I). destruct I' as [I1 I2 I3 I4 I5 I6 I7 I8].
    assert (Ni : ~ In i (map fst (w_log W))) by (rewrite I5; congruence).
    assert (D : (e = None /\ grow_exec (w_rows W) c = Ok rows) \/
      exists f, e = Some f /\ rows = w_rows W /\ serial (w_log W ++ [(i, Some f)]) (w_rows W)).
    { destruct e as [f|].
      - right. exists f. assert (rows = w_rows W) by (eapply solo_failed; eauto). subst rows. split; auto. split; auto.
        destruct c as [k x|x].
        + eapply serial_fail; eauto. apply (child_end _ _ k x y _ _ St Rc Sc Es).
        + destruct Sc as [->|[(np & -> & H)|(np & -> & _)]].
          * rewrite solo_root in Es. destruct (root_cases _ _ x St Rc) as [[E1 E2]|(np & E1 & _)]; rewrite E1 in Es; [|discriminate].
            injection Es as <-. eapply serial_fail; eauto.
          * rewrite solo_inserting in Es. destruct H as [H|(_ & j & z & Hj & Ej)].
            -- destruct (root_cases _ _ x St Rc) as [[E1 E2]|(np' & E1 & _ & Ex & _)]; [congruence|].
               assert (np' = np) by congruence. subst np'. rewrite Ex in Es. discriminate.
            -- destruct (existsb _ _); [|discriminate]. injection Es as <-. eapply serial_clash; eauto.
          * rewrite solo_pending in Es. discriminate.
      - left. split; auto. destruct c as [k x|x].
        + apply (child_end _ _ k x y _ _ St Rc Sc Es).
        + destruct Sc as [->|[(np & -> & H)|(np & -> & H)]].
          * rewrite solo_root in Es. destruct (nextpath _); discriminate.
          * rewrite solo_inserting in Es. destruct (existsb _ _); discriminate.
          * rewrite solo_pending in Es. injection Es as <-.
            destruct (root_cases _ _ x St Rc) as [[E1 E2]|(np' & E1 & E2 & _)]; [congruence|].
            assert (np' = np) by congruence. subst np'. auto. }
    assert (Kr : forall j d z, j <> i -> nth_error calls j = Some d -> nth_error (w_txs W) j = Some (Some z) ->
       fresh rows d /\ state (w_log W ++ [(i, e)]) rows d z).
    { intros j d z N Ed Ez. destruct (I6 j z Ez) as (d' & Ed' & Rd & Sd). rewrite Ed in Ed'. injection Ed' as <-.
      destruct D as [[-> Ex]|(f & -> & -> & _)]; [|split; auto; apply state_log; auto].
      destruct (grow_rows _ _ c rows St Rc Ex) as [Pk Pp].
      assert (Fd : fresh rows d).
      { unfold fresh. rewrite Pk. intros [H|H]; [|apply Rd; auto]. apply (all_apart i j c d); auto. }
      split; auto. destruct d as [k' x'|x'].
      - destruct Sd as [->|Sd]; [left; auto|]. destruct c as [k x|x].
        + destruct (I7 i j k x k' x' y z (not_eq_sym N) Ec Ed Ey Ez) as [->|[->|C]].
          * exfalso. apply (s_start _ _ _ _ _ _ _ _ _ _ SZ (w_rows W) (k, x) rows). auto.
          * left. auto.
          * right. assert (Sr := grow_stores _ _ _ _ St Rc Ex). apply (reach_mid cfg radix2 step1 unsorted rows _ k' x' z Sr Fd).
            apply (s_stable _ _ _ _ _ _ _ _ _ _ SZ (w_rows W) rows (k', x') (k, x) z (ex_intro _ _ St) Rd Rc); auto.
            -- apply (all_apart j i (Child k' x') (Child k x)); auto.
            -- unfold compat. cbn. auto.
            -- apply (mid_reach cfg radix2 step1 unsorted _ _ k' x' z St Rd Sd).
        + right. destruct (root_cases _ _ x St Rc) as [[_ E2]|(np & _ & E2 & _)]; [congruence|].
          rewrite Ex in E2. injection E2 as ->. eapply mid_root; eauto.
      - destruct c as [k x|x].
        + destruct (child_ok _ _ k x rows St Rc Ex) as (nd & np & Hn & Er & _).
          assert (En : nextpath rows = nextpath (w_rows W)) by (rewrite Er; eapply nextpath_child; eauto).
          destruct Sd as [->|[(q & -> & H)|(q & -> & H)]]; [left; auto|right; left|right; right].
          * exists q. split; auto. destruct H as [H|[H1 (a & b & H2 & H3)]]; [left; congruence|].
            right. split; auto. exists a, b. split; auto. apply in_or_app. auto.
          * exists q. split; auto. congruence.
        + destruct Sc as [->|[(np & -> & H)|(np & -> & H)]].
          * rewrite solo_root in Es. destruct (nextpath _); discriminate.
          * rewrite solo_inserting in Es. destruct (existsb _ _); discriminate.
          * rewrite solo_pending in Es. injection Es as <-.
            destruct Sd as [->|[(q & -> & Hq)|(q & -> & Hq)]]; [left; auto|right; left|exfalso].
            -- exists q. split; auto. right. destruct Hq as [Hq|[H1 (a & b & H2 & H3)]].
               ++ assert (q = np) by congruence. subst q. split; [left; auto|]. exists i, x. split; auto. apply in_or_app. right. left. auto.
               ++ split; [right; auto|]. exists a, b. split; auto. apply in_or_app. auto.
            -- apply (I8 i j x x' np q); auto. }
    split; cbn [w_rows w_txs w_log].
    + destruct D as [[-> Ex]|(f & -> & -> & H)]; auto. eapply serial_ok; eauto.
    + unfold succeeded. rewrite flat_map_app. cbn [flat_map fst snd]. rewrite Ec.
      destruct D as [[-> Ex]|(f & -> & -> & H)]; rewrite !app_nil_r; auto.
      rewrite fold_left_app. cbn [fold_left]. apply (grow_stores _ _ _ _ St Rc Ex).
    + rewrite set_nth_length. auto.
    + rewrite map_app. cbn. apply (Permutation_NoDup (Permutation_cons_append _ _)). constructor; auto.
    + intros j. rewrite map_app, in_app_iff, nth_set_nth, I5. cbn.
      destruct (Nat.eqb_spec j i) as [->|N].
      * rewrite Ey. cbn. tauto.
      * split; [intros [H|[H|[]]]; auto; congruence|auto].
    + intros j z. rewrite nth_set_nth. destruct (Nat.eqb_spec j i) as [->|N]; [rewrite Ey; discriminate|].
      intros Ez. destruct (I6 j z Ez) as (d & Ed & _). exists d. split; auto. apply (Kr j); auto.
    + intros j l k x k' x' z z' N Ed Ef. rewrite !nth_set_nth.
      destruct (Nat.eqb_spec j i) as [->|Nj]; [rewrite Ey; discriminate|].
      destruct (Nat.eqb_spec l i) as [->|Nk]; [rewrite Ey; discriminate|]. apply I7; auto.
    + intros j l x z np np' N Ed Ef. rewrite !nth_set_nth.
      destruct (Nat.eqb_spec j i) as [->|Nj]; [rewrite Ey; discriminate|].
      destruct (Nat.eqb_spec l i) as [->|Nk]; [rewrite Ey; discriminate|]. apply (I8 j l x z); auto.
Qed.

Lemma inv_play W schedule : inv W -> inv (play m_pk mp_same W schedule).
Proof. revert W. induction schedule as [|i l IH]; intros W I; cbn; auto. apply IH, inv_step, I. Qed.

(** ** Everything can finish *)
Definition left (y : tx mprow) : nat :=
  match x_prog y with
  | Commit => 1 | Raise _ => 1 | Insert _ _ => 2
  | Update _ _ _ => match x_found y with Some _ => 3 | None => 4 end
  | Delete _ _ => 0 | Select _ => 5 | SelectForUpdate _ _ => 6
  end.
Definition left_tx (o : option (tx mprow)) : nat := match o with Some y => left y | None => 0 end.
Definition left_all (W : world mprow) : nat := list_sum (map left_tx (w_txs W)).

Lemma left_set l : forall i v o, nth_error l i = Some o -> left_tx v < left_tx o ->
  list_sum (map left_tx (set_nth i v l)) < list_sum (map left_tx l).
Proof.
  induction l as [|a l IH]; intros [|i] v o E H; cbn in E; try discriminate.
  - injection E as ->. cbn. lia.
  - cbn. specialize (IH i v o E H). unfold list_sum in IH. lia.
Qed.

Lemma state_go t F log c y y' : stores t F -> fresh t c -> state log t c y -> solo t y = Go y' -> left y' < left y.
Proof.
  intros St Rd Sc E. assert (N := pks_nodup cfg t F St). destruct c as [k x|x].
  - destruct Sc as [->|M].
    + change (begin (begun (Child k x))) with (begin (start cfg (k, x))) in *. rewrite (solo_first cfg unsorted) in E.
      destruct (filter _ t) as [|nd l]; [discriminate|]. destruct (is_leaf nd); [destruct (newpath t nd); [|discriminate]|];
        injection E as <-; cbn; lia.
    + destruct M as [nd Hn Ek El|nd np fo Hn Ek En Hf|nd np Hn Ek En|nd np Hn Ek En].
      * rewrite (solo_select cfg) in E by auto. destruct (newpath t nd); [|discriminate]. injection E as <-. cbn. lia.
      * destruct Hf as [->| ->].
        -- rewrite solo_update in E by auto. injection E as <-. cbn. lia.
        -- rewrite solo_found in E by auto. injection E as <-. cbn. lia.
      * unfold ConcModel.solo in E. cbn [x_prog] in E. destruct (existsb _ _); [discriminate|]. injection E as <-. cbn. lia.
      * discriminate.
  - destruct Sc as [->|[(np & -> & _)|(np & -> & _)]].
    + rewrite solo_root in E. destruct (nextpath t); [|discriminate]. injection E as <-. cbn. lia.
    + rewrite solo_inserting in E. destruct (existsb _ _); [discriminate|]. injection E as <-. cbn. lia.
    + discriminate.
Qed.

Lemma state_left log t c y : state log t c y -> 0 < left y.
Proof.
  destruct c as [k x|x].
  - intros [->|[nd Hn Ek El|nd np fo Hn Ek En [->| ->]|nd np Hn Ek En|nd np Hn Ek En]]; cbn; lia.
  - intros [->|[(np & -> & _)|(np & -> & _)]]; cbn; lia.
Qed.

Lemma step_less W i y : inv W -> nth_error (w_txs W) i = Some (Some y) -> blocked mp_same W i y = false ->
  left_all (step m_pk mp_same W i) < left_all W.
Proof.
  intros I Ey Eb. destruct (v_run W I i y Ey) as (c & Ec & Rc & Sc). unfold step. rewrite Ey, Eb.
  destruct (solo (w_rows W) y) as [y'|rows e] eqn:Es; unfold left_all; cbn [w_txs]; apply left_set with (o := Some y); auto; cbn.
  - apply (state_go (w_rows W) _ (w_log W) c y y' (v_stores W I) Rc Sc Es).
  - eapply state_left; eauto.
Qed.

Definition empty_handed (y : tx mprow) : bool := match x_writes y, x_locks y with [], [] => true | _, _ => false end.
Definition is_pending (y : tx mprow) : bool := match x_prog y, x_locks y with Commit, [] => true | _, _ => false end.

Lemma waits_empty y z : empty_handed z = true -> waits mp_same y z = false.
Proof.
  unfold empty_handed, waits. destruct (x_writes z), (x_locks z); try discriminate. intros _.
  destruct (x_prog y); auto; destruct (x_found y) as [l|]; auto; induction l; auto.
Qed.

Lemma mid_locked t k x y : mid t k x y -> x_locks y <> [].
Proof. intros M E. apply (mid_locks cfg t k x y k) in M. rewrite E, Nat.eqb_refl in M. discriminate. Qed.

Lemma find_tx (P : tx mprow -> bool) (W : world mprow) :
  (exists i y, nth_error (w_txs W) i = Some (Some y) /\ P y = true) \/
  (forall i y, nth_error (w_txs W) i = Some (Some y) -> P y = false).
Proof.
  destruct (existsb (fun o => match o with Some y => P y | None => false end) (w_txs W)) eqn:E.
  - left. apply existsb_exists in E. destruct E as ([y|] & Hy & E); [|discriminate].
    apply In_nth_error in Hy. destruct Hy as [i Hy]. eauto.
  - right. intros i y Ey. destruct (P y) eqn:Py; auto. exfalso. apply not_true_iff_false in E. apply E.
    apply existsb_exists. exists (Some y). split; auto. eapply nth_error_In; eauto.
Qed.

Lemma can_step W : inv W -> finished W = false -> exists i, left_all (step m_pk mp_same W i) < left_all W.
Proof.
  intros I Fi.
  destruct (find_tx is_pending W) as [(i & y & Ey & P)|NP].
  { exists i. apply (step_less W i y I Ey). apply blocked_false. intros j z _ _.
    unfold is_pending in P. unfold waits. destruct (x_prog y); try discriminate. reflexivity. }
  destruct (find_tx (fun y => negb (empty_handed y)) W) as [(i & y & Ey & P)|NH].
  { exists i. apply (step_less W i y I Ey). apply blocked_false. intros j z Nj Ez.
    assert (St := v_stores W I).
    destruct (v_run W I i y Ey) as (c & Ec & Rc & Sc). destruct (v_run W I j z Ez) as (d & Ed & Rd & Sd).
    apply negb_true_iff in P.
    destruct c as [k x|x]; [|destruct Sc as [->|[(np & -> & _)|(np & -> & _)]]; [discriminate|discriminate|]].
    2:{ specialize (NP i _ Ey). discriminate. }
    destruct Sc as [->|Sc]; [discriminate|].
    destruct d as [k' x'|x']; [|destruct Sd as [->|[(np & -> & _)|(np & -> & _)]]; [apply waits_begin|apply waits_empty; auto|]].
    2:{ specialize (NP j _ Ez). discriminate. }
    destruct Sd as [->|Sd]; [apply waits_begin|].
    destruct (v_pair W I i j k x k' x' y z (not_eq_sym Nj) Ec Ed Ey Ez) as [->|[->|C]].
    - discriminate.
    - apply mid_locked in Sd. exfalso. apply Sd. reflexivity.
    - apply (s_free _ _ _ _ _ _ _ _ _ _ SZ (w_rows W) (k, x) (k', x') y z (ex_intro _ _ St) Rc Rd); auto.
      + apply (all_apart i j (Child k x) (Child k' x')); auto.
      + apply (mid_reach cfg radix2 step1 unsorted _ _ k x y St Rc Sc).
      + apply (mid_reach cfg radix2 step1 unsorted _ _ k' x' z St Rd Sd). }
  destruct (find_tx (fun _ => true) W) as [(i & y & Ey & _)|NA].
  - exists i. apply (step_less W i y I Ey). apply blocked_false. intros j z _ Ez.
    apply waits_empty. specialize (NH j z Ez). apply negb_false_iff in NH. auto.
  - exfalso. apply not_true_iff_false in Fi. apply Fi. unfold finished. apply forallb_forall. intros [y|] Hy; auto.
    apply In_nth_error in Hy. destruct Hy as [i Hy]. specialize (NA i y Hy). discriminate.
Qed.

Lemma can_finish n : forall W, left_all W <= n -> inv W -> exists schedule, finished (play m_pk mp_same W schedule) = true.
Proof.
  induction n as [|n IH]; intros W L I; destruct (finished W) eqn:Fi; try (exists []; auto; fail);
    destruct (can_step W I Fi) as [i Hi]; [lia|].
  destruct (IH (step m_pk mp_same W i) ltac:(lia) (inv_step W i I)) as [l E]. exists (i :: l). auto.
Qed.

Theorem roots_concurrent schedule :
  let W := play m_pk mp_same (all_begin t0 (map begun calls)) schedule in
  serial (w_log W) (w_rows W) /\ NoDup (map fst (w_log W)) /\
  stores (w_rows W) (fold_left grow (succeeded calls (w_log W)) F0) /\
  (finished W = true -> Permutation (map fst (w_log W)) (seq 0 (length calls))) /\
  exists schedule', finished (play m_pk mp_same W schedule') = true.
Proof.
  intros W. assert (I : inv W) by (apply inv_play, inv_begin). 
  split; [apply (v_serial W I)|]. split; [apply (v_nodup W I)|]. split; [apply (v_stores W I)|]. split.
  - intros Fi. apply NoDup_Permutation; [apply (v_nodup W I)|apply seq_NoDup|].
    intros i. rewrite (v_done W I), in_seq, <- (v_len W I). split; intros H.
    + split; [lia|]. cbn. apply nth_error_Some. congruence.
    + destruct (nth_error (w_txs W) i) as [[y|]|] eqn:E; auto.
      * exfalso. unfold finished in Fi. rewrite forallb_forall in Fi. apply nth_error_In in E. specialize (Fi _ E). discriminate.
      * apply nth_error_None in E. lia.
  - apply (can_finish (left_all W) W); auto.
Qed.

Lemma serial_facts l t : serial l t -> NoDup (map fst l) ->
  stores t (fold_left grow (succeeded calls l) F0) /\
  forall i c, nth_error calls i = Some c -> ~ In (i, None) l -> fresh t c.
Proof.
  assert (Sn : forall (l : list (nat * option exn)) a, NoDup (map fst (l ++ [a])) -> NoDup (map fst l) /\ ~ In (fst a) (map fst l)).
  { clear. intros l a H. rewrite map_app in H. cbn in H. apply (Permutation_NoDup (Permutation_sym (Permutation_cons_append _ _))) in H.
    apply NoDup_cons_iff in H. tauto. }
  intros H. induction H as [|l t i c t' H IH Ec E|l t i c e H IH Ec E|l t i x j z H IH Ei Hj Ej]; intros N.
  - split; auto. intros i c Ec _. apply fresh0. eapply nth_error_In; eauto.
  - apply Sn in N. destruct N as [N Ni]. destruct (IH N) as [St Fr].
    assert (Rc : fresh t c). { apply (Fr i); auto. intros Q. apply Ni. apply in_map_iff. exists (i, None). auto. }
    split.
    + unfold succeeded. rewrite flat_map_app. cbn [flat_map fst snd]. rewrite Ec, app_nil_r, fold_left_app. cbn [fold_left].
      apply (grow_stores _ _ _ _ St Rc E).
    + intros j d Ed Nj. destruct (grow_rows _ _ c t' St Rc E) as [Pk _]. unfold fresh. rewrite Pk. intros [Q|Q].
      * apply (all_apart i j c d); auto. intros ->. apply Nj. apply in_or_app. right. left. auto.
      * apply (Fr j d Ed); auto. intros Q'. apply Nj. apply in_or_app. auto.
  - apply Sn in N. destruct N as [N Ni]. destruct (IH N) as [St Fr]. split.
    + unfold succeeded. rewrite flat_map_app. cbn [flat_map fst snd]. rewrite !app_nil_r. auto.
    + intros j d Ed Nj. apply (Fr j d Ed). intros Q'. apply Nj. apply in_or_app. auto.
  - apply Sn in N. destruct N as [N Ni]. destruct (IH N) as [St Fr]. split.
    + unfold succeeded. rewrite flat_map_app. cbn [flat_map fst snd]. rewrite !app_nil_r. auto.
    + intros k d Ed Nk. apply (Fr k d Ed). intros Q'. apply Nk. apply in_or_app. auto.
Qed.

(** With one add_root only, no call fails because of the others. *)
Lemma serial_one_root l t : serial l t -> NoDup (map fst l) ->
  (forall i j c d, nth_error calls i = Some c -> nth_error calls j = Some d -> is_root_call c -> is_root_call d -> i = j) ->
  one_by_one grow_exec calls t0 (map fst l) = (t, l).
Proof.
  assert (Sn : forall (l : list (nat * option exn)) a, NoDup (map fst (l ++ [a])) -> NoDup (map fst l) /\ ~ In (fst a) (map fst l)).
  { clear. intros l a H. rewrite map_app in H. cbn in H. apply (Permutation_NoDup (Permutation_sym (Permutation_cons_append _ _))) in H.
    apply NoDup_cons_iff in H. tauto. }
  intros H. induction H as [|l t i c t' H IH Ec E|l t i c e H IH Ec E|l t i x j z H IH Ei Hj Ej]; intros N O; auto;
    apply Sn in N; destruct N as [N Ni].
  - rewrite map_app, one_by_one_app, (IH N O). cbn [map fst one_by_one]. rewrite Ec, E. auto.
  - rewrite map_app, one_by_one_app, (IH N O). cbn [map fst one_by_one]. rewrite Ec, E. auto.
  - exfalso. apply Ni. cbn. replace i with j by (apply (O j i (Root z) (Root x)); cbn; auto).
    apply in_map_iff. exists (j, None). auto.
Qed.
End MP.
