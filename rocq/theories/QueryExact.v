(** How many statements the calls that succeed send: exact numbers and lower bounds. *)
From Coq Require Import String List Arith Bool ZArith Lia.
From Verif Require Import Prelude Forest SpecFacts CommonModel Order History QueryModel QueryFacts.
From Verif Require MPModel NSModel ALModel LTModel CrashModel.
Import ListNotations.

Lemma ask_ok {A B} (x : counted A) (f : A -> counted B) v n : andthen x f = (Ok v, n) ->
  exists a k m, x = (Ok a, k) /\ f a = (Ok v, m) /\ n = k + m.
Proof.
  destruct x as [[a|e] k]; cbn; [|intros E; discriminate E]. destruct (f a) as [r m] eqn:E. intros H. injection H as -> <-.
  exists a, k, m. auto.
Qed.
Lemma free_ok {A} (r : res A) v n : free r = (Ok v, n) -> r = Ok v /\ n = 0.
Proof. unfold free. intros H. injection H as -> <-. auto. Qed.
Lemma query_ok {A} (r : res A) v n : query r = (Ok v, n) -> r = Ok v /\ n = 1.
Proof. unfold query. intros H. injection H as -> <-. auto. Qed.

(** Takes a counted call that succeeded apart. *)
Ltac step :=
  match goal with
  | H : andthen _ _ = (Ok _, _) |- _ => apply ask_ok in H; destruct H as (? & ? & ? & ? & ? & ?)
  | H : free (Ok _) = (Ok _, _) |- _ => apply free_ok in H; destruct H as [H ?]; injection H as H
  | H : query (Ok _) = (Ok _, _) |- _ => apply query_ok in H; destruct H as [H ?]; injection H as H
  | H : free (Err _) = (Ok _, _) |- _ => discriminate H
  | H : query (Err _) = (Ok _, _) |- _ => discriminate H
  | H : Err _ = Ok _ |- _ => discriminate H
  | H : Some _ = Some _ |- _ => injection H as H
  | H : (_, _) = (_, _) |- _ => injection H as H
  | H : true = false |- _ => discriminate H
  | H : false = true |- _ => discriminate H
  | H : free _ = (Ok _, _) |- _ => apply free_ok in H; destruct H
  | H : query _ = (Ok _, _) |- _ => apply query_ok in H; destruct H
  | x : (_ * _)%type |- _ => destruct x
  end.
Ltac steps := repeat (cbv beta zeta in *; step).

(** ** Materialized paths *)
Section MP.
Import MPModel.
Variable cfg : mp_cfg.
Notation sigs db := (length (db_sig db)).

Lemma add_root_exact db x v n : is_sorted cfg = false -> MP.add_root cfg db x = (Ok v, n) -> n = 2.
Proof.
  intros So H. unfold MP.add_root in H. step. step. subst. rewrite So in *. destruct (get_last_root_node (db_rows db)); steps; lia.
Qed.
Lemma add_child_exact db tg x v n : is_sorted cfg = false -> MP.add_child cfg db tg x = (Ok v, n) ->
  exists r, get_by_pk (db_rows db) (m_pk tg) = Ok r /\ n = if is_leaf r then 3 else 4.
Proof.
  intros So H. unfold MP.add_child in H. step. rewrite So in *. cbn [andb] in *. step. exists x0. split; [steps; auto|].
  destruct (is_leaf x0); steps; lia.
Qed.

(** Numchild of the rows *)
Definition lowered (t t' : mp_table) : bool := existsb (fun x => m_nc (snd x) <? m_nc (fst x)) (combine t t').
Definition raised (t t' : mp_table) : bool := existsb (fun x => m_nc (fst x) <? m_nc (snd x)) (combine t t').

Lemma set_newpath_facts db old new db' : set_newpath cfg db old new = Ok db' ->
  sigs db' <= S (sigs db) /\ map m_nc (db_rows db') = map m_nc (db_rows db).
Proof.
  unfold set_newpath. intros H. destruct (peq old new).
  - injection H as <-. cbn [db_sig db_rows]. rewrite app_length. destruct (existsb _ _); cbn [length]; split; auto; lia.
  - destruct (paths_clash _ _ _ _); [discriminate H|]. injection H as <-. cbn [db_sig db_rows]. rewrite app_length. split.
    + destruct (existsb _ _); cbn [length]; lia.
    + rewrite map_map. apply map_ext. intros r. unfold set_row. destruct (ppre _ _); auto.
Qed.
Lemma move_siblings_least l : forall db op tp db' op' tp' n, MP.move_siblings cfg db op tp l = (Ok (db', op', tp'), n) ->
  sigs db' <= sigs db + n /\ map m_nc (db_rows db') = map m_nc (db_rows db).
Proof.
  induction l as [|r l IH]; intros db op tp db' op' tp' n H; cbn [MP.move_siblings] in H.
  - steps. subst. split; [lia|auto].
  - steps. destruct op as [op|]; match goal with H : MP.move_siblings _ _ _ _ _ = _ |- _ => apply IH in H end;
    match goal with H : set_newpath _ _ _ _ = _ |- _ => apply set_newpath_facts in H; destruct H as [? E] end;
    rewrite <- E; intuition lia.
Qed.

(** The statement that reads the siblings or the last one of them; for the first child of a leaf
    there is none. *)
Definition looks (np : option nat) (sib : option (list mprow)) : nat := match np, sib with Some _, None => 0 | _, _ => 1 end.
Lemma reorder_least db p np nd tg sib op db' op' x y n : MP.reorder cfg db p np nd tg sib op = (Ok (db', op', x, y), n) ->
  sigs db' + looks np sib <= sigs db + n /\ map m_nc (db_rows db') = map m_nc (db_rows db).
Proof.
  intros H. assert (L : looks np sib <= 1) by (unfold looks; destruct np, sib; lia). unfold MP.reorder in H. cbv zeta in H.
  apply ask_ok in H. destruct H as (e & k0 & n1 & _ & H & ->). destruct e.
  - apply ask_ok in H. destruct H as (la & k1 & n2 & E1 & H & ->). apply query_ok in E1. destruct E1 as [_ ->].
    apply ask_ok in H. destruct H as (q & k2 & n3 & _ & H & ->). apply ask_ok in H. destruct H as (d & k3 & n4 & E & H & ->).
    steps. subst. destruct op' as [o|].
    + apply query_ok in E. destruct E as [E ->]. apply set_newpath_facts in E. intuition lia.
    + apply free_ok in E. destruct E as [E ->]. injection E as ->. split; [lia|auto].
  - apply ask_ok in H. destruct H as ([n' sib'] & k1 & n2 & E1 & H & ->). apply free_ok in E1. destruct E1 as [E1 ->].
    apply ask_ok in H. destruct H as (S & k2 & n3 & E2 & H & ->).
    assert (K : looks np sib <= k2).
    { destruct np as [m|]; [injection E1 as <- <-; destruct sib; cbn [looks]; [apply query_ok in E2; lia|lia]|].
      destruct (reorder_pos _ _ _ _) as [[? l]|]; [|discriminate E1]. injection E1 as <- <-. apply query_ok in E2. cbn; lia. }
    apply ask_ok in H. destruct H as ([d1 temp] & k3 & n4 & E3 & H & ->).
    assert (D1 : sigs d1 <= sigs db + k3 /\ map m_nc (db_rows d1) = map m_nc (db_rows db)).
    { destruct op as [o|]; [destruct (_ && _) in E3|].
      - steps. subst. match goal with H : set_newpath _ _ _ _ = _ |- _ => apply set_newpath_facts in H end. intuition lia.
      - steps. subst. split; [lia|auto].
      - steps. subst. split; [lia|auto]. }
    apply ask_ok in H. destruct H as (ms & k4 & n5 & _ & H & ->).
    apply ask_ok in H. destruct H as ([[d2 o2] tp] & k5 & n6 & E5 & H & ->). apply move_siblings_least in E5.
    destruct E5 as [E5 N5]. rewrite <- (proj2 D1), <- N5. destruct o2 as [o2|].
    + steps. subst. match goal with H : set_newpath _ _ _ _ = _ |- _ => apply set_newpath_facts in H; destruct H as [? ->] end. split; [lia|auto].
    + steps. subst. split; [lia|auto].
Qed.

Lemma save_sigs db r db' : save_row db r = Ok db' -> sigs db' = sigs db.
Proof. unfold save_row. intros H. destruct (existsb _ _); [discriminate H|]. destruct (existsb _ _); injection H as <-; auto. Qed.
Lemma looks_sorted cfg' t tg d P P' np sib k1 :
  match P with
  | SortedSibling =>
      let siblings := sorted_siblings cfg' t tg d in
      ask first <- query (Ok (hd_error siblings));
      match first with
      | Some first => ask n <- free (get_lastpos cfg' (m_path first)); free (Ok (P, Some n, Some siblings))
      | None => free (Ok (LastSibling, None, Some siblings))
      end
  | _ => free (Ok (P, None, None))
  end = (Ok (P', np, sib), k1) -> (match P with SortedSibling => 1 | _ => 0 end) <= k1 /\ looks np sib = 1.
Proof.
  intros E1. destruct P; try (apply free_ok in E1; destruct E1 as [E1 ->]; injection E1 as <- <- <-; auto; fail).
  cbv zeta in E1. apply ask_ok in E1. destruct E1 as (f & k2 & k3 & E2 & E3 & ->). apply query_ok in E2. destruct E2 as [_ ->].
  destruct f; steps; subst; cbn [looks]; split; auto; lia.
Qed.

Lemma add_sibling_least db tg p x db' r n : MP.add_sibling cfg db tg p x = (Ok (db', r), n) ->
  sigs db' + 2 + (if is_sorted cfg then 1 else 0) + (match get_basepath cfg (m_path r) (m_depth tg - 1) with [] => 0 | _ => 1 end) <= sigs db + n.
Proof.
  intros H. unfold MP.add_sibling in H. cbv zeta in H. apply ask_ok in H. destruct H as (P & k0 & n1 & E0 & H & ->). apply free_ok in E0. destruct E0 as [E0 ->].
  apply ask_ok in H. destruct H as ([[P' np] sib] & k1 & n2 & E1 & H & ->).
  assert (K : (if is_sorted cfg then 1 else 0) <= k1 /\ looks np sib = 1).
  { destruct (looks_sorted _ _ _ _ _ _ _ _ _ E1) as [A ->]. split; auto. destruct (is_sorted cfg); [|lia].
    rewrite (prepare_add_sorted _ _ E0) in A. auto. }
  apply ask_ok in H. destruct H as ([[[d1 o1] q] y] & k2 & n3 & E2 & H & ->). apply reorder_least in E2. destruct E2 as [E2 _].
  apply ask_ok in H. destruct H as (d2 & k3 & n4 & E3 & H & ->).
  apply ask_ok in H. destruct H as (d3 & k4 & n5 & E4 & H & ->). apply query_ok in E4. destruct E4 as [E4 ->]. apply save_sigs in E4.
  steps. subst. cbn [m_path]. 
  assert (S3 : sigs d2 = sigs d1 /\ (match get_basepath cfg q (m_depth tg - 1) with [] => 0 | _ => 1 end) = k3).
  { destruct (get_basepath cfg q (m_depth tg - 1)).
    - apply free_ok in E3. destruct E3 as [E3 ->]. injection E3 as ->. auto.
    - apply query_ok in E3. destruct E3 as [E3 ->]. injection E3 as <-. auto. }
  lia.
Qed.

Lemma nc_same (t t' : mp_table) : map m_nc t' = map m_nc t -> forall u, lowered t' u = lowered t u /\ raised t' u = raised t u.
Proof.
  revert t. induction t' as [|a t' IH]; intros [|b t] E; try discriminate E; auto. cbn in E. injection E as Ea E. intros [|c u]; auto.
  destruct (IH t E u) as [L R]. unfold lowered, raised in *. cbn [combine existsb fst snd]. rewrite Ea, L, R. auto.
Qed.
Lemma nc_self t : lowered t t = false /\ raised t t = false.
Proof. induction t as [|a t [L R]]; auto. unfold lowered, raised in *. cbn [combine existsb fst snd]. rewrite Nat.ltb_irrefl, L, R. auto. Qed.
Lemma counts_least db op np db' n : MP.update_parent_counts cfg db op np = (Ok db', n) ->
  sigs db' = sigs db /\ (if lowered (db_rows db) (db_rows db') then 1 else 0) + (if raised (db_rows db) (db_rows db') then 1 else 0) <= n.
Proof.
  intros H. unfold MP.update_parent_counts in H. cbv zeta in H.
  assert (Lo : forall p u, lowered u (map (upd_nc p S) u) = false).
  { intros p u. induction u as [|a u IH]; auto. unfold lowered in *. cbn [map combine existsb fst snd]. rewrite IH, orb_false_r.
    unfold upd_nc. destruct (peq (m_path a) p); cbn [m_nc]; [apply Nat.ltb_ge; lia|apply Nat.ltb_irrefl]. }
  assert (Ra : forall p u, raised u (map (upd_nc p pred) u) = false).
  { intros p u. induction u as [|a u IH]; auto. unfold raised in *. cbn [map combine existsb fst snd]. rewrite IH, orb_false_r.
    unfold upd_nc. destruct (peq (m_path a) p); cbn [m_nc]; [apply Nat.ltb_ge; lia|apply Nat.ltb_irrefl]. }
  destruct (peq _ _).
  - steps. subst. destruct (nc_self (db_rows db')) as [-> ->]. auto.
  - apply ask_ok in H. destruct H as (d & k1 & k2 & E1 & E2 & ->).
    destruct (get_parent_path cfg op), (get_parent_path cfg np); steps; subst; unfold decrement_numchild, increment_numchild; cbn [db_rows db_sig]; split; auto.
    + destruct (nc_self (db_rows db')) as [-> ->]. lia.
    + rewrite Lo. destruct (raised _ _); lia.
    + rewrite Ra. destruct (lowered _ _); lia.
    + destruct (lowered _ _), (raised _ _); lia.
Qed.

Definition onto_child (p : pos) : bool := match p with FirstChild | LastChild | SortedChild => true | _ => false end.

Lemma move_least db node tg p P db' node' tg' n : prepare_pos_move (is_sorted cfg) p = Ok P ->
  MP.move cfg db node tg p = (Ok (db', node', tg'), n) -> db' <> db ->
  sigs db' + (if lowered (db_rows db) (db_rows db') then 1 else 0) + (if raised (db_rows db) (db_rows db') then 1 else 0) +
    (if onto_child P then if is_leaf tg then 2 else if is_sorted cfg then 5 else 4 else if is_sorted cfg then 4 else 3) <= sigs db + n.
Proof.
  intros EP H Hne. unfold MP.move in H. rewrite EP, then_ok in H. cbv zeta in H.
  apply ask_ok in H. destruct H as ([[[[[t1 nd] sib] np] p1] ut] & k1 & n1 & E1 & H & ->).
  destruct (is_descendant_of _ _ ); [discriminate H|].
  apply ask_ok in H. destruct H as (r & k2 & n2 & E2 & H & ->).
  destruct r as [[[p2 np2] sib2]|]; [|steps; congruence].
  apply ask_ok in H. destruct H as ([[[d1 o1] q] y] & k3 & n3 & E3 & H & ->). apply reorder_least in E3. destruct E3 as [E3 N3].
  apply ask_ok in H. destruct H as (d2 & k4 & n4 & E4 & H & ->). apply counts_least in E4.
  destruct (nc_same _ _ N3 (db_rows d2)) as [L R]. rewrite L, R in E4. clear L R.
  apply ask_ok in H. destruct H as (nd' & k5 & n5 & E5 & H & ->). apply query_ok in E5. destruct E5 as [_ ->].
  apply ask_ok in H. destruct H as (tg2 & k6 & n6 & E6 & H & ->). apply query_ok in E6. destruct E6 as [_ ->]. steps. subst.
  assert (K2 : match p1 with SortedSibling => 1 | _ => looks np2 sib2 end <= looks np2 sib2 /\ match p1 with SortedSibling => 1 | _ => 0 end <= k2 /\
     (p1 <> SortedSibling -> looks np2 sib2 = looks np sib)).
  { clear E3. unfold MP.move_prepare in E2. apply ask_ok in E2. destruct E2 as (r & a & b & Ea & Eb & ->).
    destruct r as [[[p3 np3] sib3]|]; [|steps; discriminate].
    assert (Q : np2 = np3 /\ sib2 = sib3).
    { apply ask_ok in Eb. destruct Eb as (h & b1 & b2 & _ & Eb & ->). destruct h; [steps; discriminate|].
      apply ask_ok in Eb. destruct Eb as (z & c1 & c2 & _ & Eb & ->). apply free_ok in Eb. destruct Eb as [Eb _]. destruct z; [discriminate Eb|].
      injection Eb as <- <- <-. auto. }
    destruct Q as [-> ->].
    destruct p1; try (apply free_ok in Ea; destruct Ea as [Ea ->]; injection Ea as <- <- <-; repeat split; auto; lia).
    cbv zeta in Ea. apply ask_ok in Ea. destruct Ea as (f & a1 & a2 & Ef & Ea & ->). apply query_ok in Ef. destruct Ef as [_ ->].
    split; [|split; [lia|congruence]]. destruct f.
    - apply ask_ok in Ea. destruct Ea as (z & c1 & c2 & _ & Ea & ->). apply ask_ok in Ea. destruct Ea as (z2 & c3 & c4 & _ & Ea & ->).
      apply free_ok in Ea. destruct Ea as [Ea _]. destruct (_ && _); [discriminate Ea|]. injection Ea as <- <- <-. auto.
    - steps. subst. auto. }
  assert (K1 : match P with
               | FirstChild | LastChild | SortedChild => if is_leaf tg then True else looks np sib = 1 /\ k1 = 1 /\ (P = SortedChild -> p1 = SortedSibling)
               | _ => looks np sib = 1 /\ p1 = P
               end).
  { unfold MP.move_to_child_vars in E1.
    destruct P; try (steps; subst; auto; fail);
      (destruct (m_pk tg =? m_pk node); [discriminate E1|]); cbv zeta in E1;
      (destruct (is_leaf tg); [exact Logic.I|]); steps; subst; repeat split; auto; intros; discriminate. }
  assert (So : is_sorted cfg = true -> P = SortedSibling \/ P = SortedChild).
  { intros E. rewrite E in EP. apply prepare_move_sorted in EP. auto. }
  destruct E4 as [E4 E4']. destruct K2 as (K2 & K3 & K4). assert (p1 = SortedSibling \/ p1 <> SortedSibling) as [Es|Es] by (destruct p1; auto; right; discriminate).
  - subst p1. assert (looks np2 sib2 = 1) by (unfold looks in *; destruct np2, sib2; lia).
    destruct (is_sorted cfg), P; cbn [onto_child]; try destruct (is_leaf tg); lia.
  - specialize (K4 Es). destruct (is_sorted cfg).
    + destruct (So eq_refl) as [-> | ->]; cbn [onto_child].
      * destruct K1 as [_ ->]. congruence.
      * destruct (is_leaf tg); [lia|]. destruct K1 as (_ & _ & K1). specialize (K1 eq_refl). congruence.
    + destruct P; cbn [onto_child]; try destruct (is_leaf tg); lia.
Qed.
End MP.

(** ** Nested sets *)
Section NS.
Import NSModel.
Variable o : ordering.
Hypothesis unsorted : is_sorted o = false.

Lemma ns_add_root_exact db x v n : NS.add_root o db x = (Ok v, n) -> n = 2.
Proof.
  intros H. unfold NS.add_root in H. step. rewrite unsorted in *. destruct x0; steps; lia.
Qed.

(** The statements of add_sibling and of a move, by the place: below the root or not, the
    target is the first or the last of its siblings. *)
Definition ns_add_cost (root first last : bool) (p : pos) : nat :=
  match p with
  | LastSibling => if root then 2 else 3
  | FirstSibling => if root then 3 else 4
  | Left => if root then 3 else if first then 5 else 4
  | Right => if root then (if last then 2 else 3) else if last then 4 else 5
  | _ => 0
  end.
Definition ns_move_cost (root first last : bool) (p : pos) : nat :=
  (if root then 0 else 1) +
  match p with
  | LastSibling => 6
  | FirstSibling => 7
  | Left => if first then 8 else 7
  | Right => if last then 7 else 8
  | _ => 0
  end.

Lemma siblings_cost t tg L l k : get_siblings t tg = Ok L -> NS.siblings t tg = (Ok l, k) -> l = L /\ k = if is_root tg then 0 else 1.
Proof. intros E H. unfold NS.siblings in H. unfold is_root. rewrite E in H. destruct (n_lft tg =? 1)%Z; injection H as <- <-; auto. Qed.

Lemma normalize_cost t P tg L p1 t1 k : get_siblings t (o_row tg) = Ok L -> NS.normalize t P tg = (Ok (p1, t1), k) ->
  let r := if is_root (o_row tg) then 0 else 1 in
  match P with
  | FirstSibling => k = r + 1 /\ p1 = FirstSibling
  | Left => k = r + (if same_pk (o_row tg) (hd_error L) then 2 else 1) /\ (p1 = FirstSibling \/ p1 = Left)
  | Right => if same_pk (o_row tg) (last_opt L) then k = r + 1 /\ p1 = LastSibling /\ t1 = fresh (o_row tg)
             else k = r + 2 /\ (p1 = FirstSibling \/ p1 = Left)
  | _ => k = 0 /\ p1 = P /\ t1 = tg
  end.
Proof.
  intros EL H r. unfold NS.normalize in H.
  destruct P; try (steps; subst; auto; fail);
    apply ask_ok in H; destruct H as (l & k1 & m & El & H & ->); apply (siblings_cost _ _ _ _ _ EL) in El; destruct El as [-> ->]; fold r.
  - rewrite then_ok in H. cbv beta iota zeta in H. rewrite then_ok in H. cbv beta iota zeta in H. apply ask_ok in H.
    destruct H as (f & k1 & k2 & E & H & ->). apply query_ok in E. destruct E as [E ->]. injection E as <-.
    destruct (hd_error L); steps; subst; split; auto; lia.
  - rewrite then_ok in H. cbv beta iota zeta in H. rewrite then_assoc in H. apply ask_ok in H.
    destruct H as (f & k1 & k2 & E & H & ->). apply query_ok in E. destruct E as [E ->]. injection E as <-.
    rewrite then_ok in H. destruct (same_pk (o_row tg) (hd_error L)); cbv beta iota zeta in H.
    + apply ask_ok in H. destruct H as (f & k3 & k4 & E & H & ->). apply query_ok in E. destruct E as [E ->]. injection E as <-.
      destruct (hd_error L); steps; subst; split; auto; lia.
    + steps. subst. split; auto; lia.
  - rewrite then_assoc in H. apply ask_ok in H.
    destruct H as (f & k1 & k2 & E & H & ->). apply query_ok in E. destruct E as [E ->]. injection E as <-.
    destruct (same_pk (o_row tg) (last_opt L)).
    + rewrite then_ok in H. cbv beta iota zeta in H. rewrite then_ok in H. cbv beta iota zeta in H. steps. subst. repeat split; auto; lia.
    + rewrite then_assoc in H. apply ask_ok in H. destruct H as (f & k3 & k4 & E & H & ->). apply query_ok in E. destruct E as [E ->]. injection E as <-.
      rewrite then_ok in H. cbv beta iota zeta in H. rewrite !then_ok in H.
      destruct (same_pk _ _); cbv beta iota zeta in H.
      * rewrite ?then_ok in H. destruct (hd_error L); steps; subst; split; auto; lia.
      * steps. subst. split; auto; lia.
Qed.

Lemma ns_add_sibling_exact db tg p P x L v n : prepare_pos_add false p = Ok P -> get_siblings (ns_rows db) tg = Ok L ->
  NS.add_sibling o db (fresh tg) p x = (Ok v, n) ->
  n = ns_add_cost (is_root tg) (same_pk tg (hd_error L)) (same_pk tg (last_opt L)) P.
Proof.
  intros EP EL H. assert (NP := prepare_add_unsorted _ _ EP). unfold NS.add_sibling in H. rewrite unsorted, EP, then_ok in H. cbv zeta in H. cbn [o_row fresh] in H.
  destruct (is_root tg) eqn:R.
  - assert (get_root_nodes (ns_rows db) = L) as G by (unfold get_siblings in EL; unfold is_root in R; rewrite R in EL; injection EL as <-; auto).
    unfold get_last_root_node in H. rewrite G in H. clear G EL. unfold ns_add_cost.
    destruct P; try congruence; rewrite then_ok in H; cbn [o_row fresh] in H; steps; subst; try lia; try (destruct (last_opt L); steps; lia).
    destruct (same_pk tg (last_opt L)); [destruct (last_opt L)|]; steps; lia.
  - assert (H' : (ask '(p, target) <- NS.normalize (ns_rows db) P (fresh tg);
      ask newpos <- match p with
                    | LastSibling => NS.parent_rgt (NS.asks_siblings P) (ns_rows db) target
                    | FirstSibling | Left => free (Ok (n_lft (o_row target)))
                    | _ => free (Err KeyError)
                    end;
      let r := mkNS (nid x) (n_tree tg) newpos (newpos + 1) (n_depth tg) (ndata x) in
      ask db <- query (Ok (alter_gap db (n_tree (o_row target)) newpos 2));
      query (Ok (save_row db r, r))) = (Ok v, n)).
    { destruct P; try congruence; rewrite then_ok in H; exact H. }
    clear H. rename H' into H. apply ask_ok in H. destruct H as ([p1 t1] & k1 & m & E & H & ->).
    apply (normalize_cost _ _ _ L) in E; auto. cbn [o_row fresh] in E. rewrite R in E.
    assert (H' : exists z k2, match p1 with
                    | LastSibling => NS.parent_rgt (NS.asks_siblings P) (ns_rows db) t1
                    | FirstSibling | Left => free (Ok (n_lft (o_row t1)))
                    | _ => free (Err KeyError)
                    end = (Ok z, k2) /\ m = k2 + 2).
    { cbv zeta in H. apply ask_ok in H. destruct H as (z & k2 & k3 & E2 & H & ->). exists z, k2. split; auto. steps. lia. }
    clear H. destruct H' as (z & k2 & E2 & ->). assert (FL : p1 = FirstSibling \/ p1 = Left -> k2 = 0).
    { intros [-> | ->]; apply free_ok in E2; tauto. }
    assert (SP := prepare_add_sib _ _ _ EP). unfold ns_add_cost. destruct P; try congruence; try destruct SP.
    + destruct E as [-> ->]. specialize (FL (or_introl eq_refl)). lia.
    + destruct E as [-> E]. specialize (FL E). destruct (same_pk _ _); lia.
    + destruct (same_pk tg (last_opt L)).
      * destruct E as (-> & -> & ->). cbn [NS.parent_rgt NS.asks_siblings] in E2. apply free_ok in E2. lia.
      * destruct E as [-> E]. specialize (FL E). lia.
    + destruct E as (-> & -> & ->). cbn [NS.asks_siblings] in E2. unfold NS.parent_rgt, NS.get_parent in E2. cbn [o_row fresh o_up] in E2. rewrite R in E2.
      apply ask_ok in E2. destruct E2 as (q & k3 & k4 & E3 & E4 & ->). apply query_ok in E3. apply free_ok in E4. lia.
Qed.

Lemma ns_add_child_exact db tg x v n : NS.add_child o db tg x = (Ok v, n) ->
  exists r, get_by_pk (ns_rows db) (n_pk tg) = Ok r /\ n = if is_leaf r then 3 else 4.
Proof.
  intros H. unfold NS.add_child in H. apply ask_ok in H. destruct H as (r & k1 & m & E & H & ->). apply query_ok in E. destruct E as [E ->].
  exists r. split; auto. cbv zeta in H. rewrite unsorted in H. destruct (is_leaf r) eqn:Lf; cbn [negb] in H.
  - steps. lia.
  - apply ask_ok in H. destruct H as (la & k2 & m2 & E2 & H & ->). apply query_ok in E2. destruct E2 as [_ ->]. destruct la as [la|]; [|discriminate H].
    apply ask_ok in H. destruct H as ([d' r'] & k3 & m3 & E3 & H & ->).
    assert (k3 = 2); [|steps; lia]. unfold NS.add_sibling in E3. rewrite unsorted in E3.
    replace (prepare_pos_add false (Some "last-sibling"%string)) with (Ok LastSibling) in E3 by reflexivity. rewrite then_ok in E3. cbv zeta in E3. cbn [o_row] in E3.
    destruct (is_root la) eqn:R; rewrite then_ok in E3.
    + apply ask_ok in E3. destruct E3 as (lr & k4 & k5 & E4 & E3 & ->). apply query_ok in E4. destruct E4 as [_ ->]. destruct lr; [|discriminate E3].
      apply query_ok in E3. lia.
    + cbn [NS.normalize NS.asks_siblings] in E3. rewrite then_ok in E3. unfold NS.parent_rgt, NS.get_parent in E3. cbn [o_row o_up] in E3. rewrite R in E3.
      rewrite !then_ok in E3. apply ask_ok in E3. destruct E3 as (d2 & k4 & k5 & E4 & E3 & ->). apply query_ok in E4. apply query_ok in E3. lia.
Qed.

Lemma row_fresh r : o_row (fresh r) = r. Proof. auto. Qed.
Lemma noop_ne nd tg : n_pk nd <> n_pk (o_row tg) -> noop_cache nd tg = tg.
Proof. intros H. unfold noop_cache. rewrite (proj2 (Nat.eqb_neq _ _) H). auto. Qed.

(** The second half of a move *)
Definition tail_of (asked : bool) (db : ns_db) (nd : nsrow) (parent : option nsrow) (tg : nsobj) (target : nsobj) (p : pos) : counted (ns_db * nsobj * nsobj) :=
  ask '(db1, target_tree, newpos) <- NS.make_hole asked db (n_rgt nd - n_lft nd + 1)%Z parent tg p;
   ask nd1 <- query (get_by_pk (ns_rows db1) (n_pk nd));
   let depthdiff := (n_depth (o_row tg) - n_depth nd1 + (match parent with Some _ => 1 | None => 0 end))%Z in
   let jump := (newpos - n_lft nd1)%Z in
   ask db2 <- query (Ok (jump_rows db1 nd1 target_tree jump depthdiff));
   ask db3 <- query (Ok (close_gap db2 (n_lft nd1) (n_rgt nd1) (n_tree nd1)));
   ask nd2 <- query (get_by_pk (ns_rows db3) (n_pk nd));
   ask tg2 <- query (get_by_pk (ns_rows db3) (n_pk (o_row target)));
   free (Ok (db3, fresh nd2, fresh tg2)).
Lemma move_unfold db node target p : NS.move o db node target p =
  (ask p <- free (prepare_pos_move (is_sorted o) p);
  ask '(parent, tg, p) <- NS.move_target (ns_rows db) (o_row node) target p;
  if is_descendant_of (o_row tg) (o_row node) then free (Err InvalidMoveToDescendant)
  else
  ask noop <- NS.move_is_noop (ns_rows db) (o_row node) tg p;
  if noop : bool then free (Ok (db, node, target))
  else
  ask '(p', tg') <-
    match p with
    | SortedSibling => ask sibs <- NS.siblings (ns_rows db) (o_row (noop_cache (o_row node) tg)); NS.sorted_target o sibs (n_data (o_row node)) (noop_cache (o_row node) tg)
    | _ => free (Ok (p, noop_cache (o_row node) tg))
    end;
  ask '(p', tg') <- NS.normalize (ns_rows db) p' tg';
  tail_of (NS.asks_siblings p || (n_pk (o_row node) =? n_pk (o_row tg))%nat) db (o_row node) parent tg' target p').
Proof. reflexivity. Qed.
Lemma move_tail asked db nd parent tg target p db' a b n : tail_of asked db nd parent tg target p = (Ok (db', a, b), n) ->
  exists v k, NS.make_hole asked db (n_rgt nd - n_lft nd + 1)%Z parent tg p = (Ok v, k) /\ n = k + 5.
Proof.
  unfold tail_of. intros H. apply ask_ok in H. destruct H as ([[d1 tt] np] & k & m & E & H & ->). exists (d1, tt, np), k. split; auto. steps. lia.
Qed.

Lemma hole_cost db gap tg P p1 t1 k1 L v k asked : get_siblings (ns_rows db) tg = Ok L ->
  asked = NS.asks_siblings P -> P <> SortedSibling -> is_sib_pos P ->
  NS.normalize (ns_rows db) P (fresh tg) = (Ok (p1, t1), k1) ->
  NS.make_hole asked db gap None t1 p1 = (Ok v, k) ->
  k1 + k + 5 = ns_move_cost (is_root tg) (same_pk tg (hd_error L)) (same_pk tg (last_opt L)) P.
Proof.
  intros EL -> NP SP E H. apply (normalize_cost _ _ _ L) in E; auto. cbn [o_row fresh] in E. unfold ns_move_cost.
  assert (FL : p1 = FirstSibling \/ p1 = Left -> k = 1).
  { intros [-> | ->]; unfold NS.make_hole in H; destruct (is_root (o_row t1)); apply query_ok in H; tauto. }
  destruct P; try congruence; try destruct SP.
  - destruct E as [-> ->]. specialize (FL (or_introl eq_refl)). destruct (is_root tg); lia.
  - destruct E as [-> E]. specialize (FL E). destruct (is_root tg), (same_pk _ _); lia.
  - destruct (same_pk tg (last_opt L)).
    + destruct E as (-> & -> & ->). unfold NS.make_hole in H. cbn [NS.asks_siblings o_row fresh NS.parent_rgt] in H. destruct (is_root tg) eqn:R.
      * apply ask_ok in H. destruct H as (s & k2 & k3 & E2 & E3 & ->). apply (siblings_cost _ _ _ _ _ EL) in E2. rewrite R in E2. apply query_ok in E3. lia.
      * steps. lia.
    + destruct E as [-> E]. specialize (FL E). destruct (is_root tg); lia.
  - destruct E as (-> & -> & ->). unfold NS.make_hole in H. cbn [NS.asks_siblings o_row fresh NS.parent_rgt] in H. destruct (is_root tg) eqn:R.
    + apply ask_ok in H. destruct H as (s & k2 & k3 & E2 & E3 & ->). apply (siblings_cost _ _ _ _ _ EL) in E2. rewrite R in E2. apply query_ok in E3. lia.
    + unfold NS.parent_rgt, NS.get_parent in H. cbn [o_row fresh o_up] in H. rewrite R in H. steps. lia.
Qed.

(** A move to a place beside another node, and to the children of a leaf *)
Lemma ns_move_sibling_exact db node tg p P L db' a b n : prepare_pos_move false p = Ok P -> is_sib_pos P ->
  n_pk (o_row node) <> n_pk tg -> get_siblings (ns_rows db) tg = Ok L ->
  NS.move o db node (fresh tg) p = (Ok (db', a, b), n) ->
  n = ns_move_cost (is_root tg) (same_pk tg (hd_error L)) (same_pk tg (last_opt L)) P.
Proof.
  intros EP SP Ne EL H. destruct (prepare_move_unsorted _ _ EP) as [NP _]. rewrite move_unfold, unsorted, EP, then_ok in H.
  assert (E0 : NS.move_target (ns_rows db) (o_row node) (fresh tg) P = free (Ok (None, fresh tg, P))) by (destruct P; try destruct SP; auto).
  rewrite E0, then_ok in H. rewrite row_fresh in H. destruct (is_descendant_of tg (o_row node)); [discriminate H|].
  assert (E1 : NS.move_is_noop (ns_rows db) (o_row node) (fresh tg) P = free (Ok false)).
  { unfold NS.move_is_noop. rewrite row_fresh, (proj2 (Nat.eqb_neq _ _) Ne). auto. }
  rewrite E1, then_ok, (noop_ne (o_row node) (fresh tg) Ne), (proj2 (Nat.eqb_neq _ _) Ne), orb_false_r in H.
  assert (E2 : forall s, match P with SortedSibling => s | _ => free (Ok (P, fresh tg)) end = free (Ok (P, fresh tg))) by (intros s; destruct P; congruence).
  rewrite E2, then_ok in H. apply ask_ok in H. destruct H as ([p1 t1] & k1 & m & E3 & H & ->).
  apply move_tail in H. destruct H as (v & k & E4 & ->). rewrite Nat.add_assoc. eapply hole_cost; eauto.
Qed.
Lemma ns_move_leaf_exact db node tg p P db' a b n : prepare_pos_move false p = Ok P -> onto_child P = true -> is_leaf tg = true ->
  NS.move o db node (fresh tg) p = (Ok (db', a, b), n) -> n_pk (o_row node) <> n_pk tg -> n = 6.
Proof.
  intros EP SP Lf H Ne. destruct (prepare_move_unsorted _ _ EP) as [_ NP]. rewrite move_unfold, unsorted, EP, then_ok in H.
  assert (E0 : NS.move_target (ns_rows db) (o_row node) (fresh tg) P = free (Ok (Some tg, fresh tg, LastChild))).
  { unfold NS.move_target, move_target. rewrite row_fresh, (proj2 (Nat.eqb_neq _ _) Ne), Lf. cbn [orb].
    destruct P; try discriminate SP; auto. }
  rewrite E0, then_ok in H. rewrite row_fresh in H. destruct (is_descendant_of tg (o_row node)); [discriminate H|].
  assert (E1 : NS.move_is_noop (ns_rows db) (o_row node) (fresh tg) LastChild = free (Ok false)).
  { unfold NS.move_is_noop. rewrite row_fresh, (proj2 (Nat.eqb_neq _ _) Ne). auto. }
  rewrite E1, then_ok, then_ok in H. unfold NS.normalize in H. rewrite then_ok in H.
  apply move_tail in H. destruct H as (v & k & E4 & ->). unfold NS.make_hole in E4. apply query_ok in E4. lia.
Qed.
(** To the children of a node whose last child is another one *)
Lemma ns_move_child_exact db node tg c p P L db' a b n : prepare_pos_move false p = Ok P -> onto_child P = true -> is_leaf tg = false ->
  get_last_child (ns_rows db) tg = Some c -> n_pk (o_row node) <> n_pk c -> is_root c = false -> get_siblings (ns_rows db) c = Ok L ->
  NS.move o db node (fresh tg) p = (Ok (db', a, b), n) -> n_pk (o_row node) <> n_pk tg ->
  n = match P with FirstChild => 9 | _ => 8 end.
Proof.
  intros EP SP Lf Lc Nc Rc EL H Ne. destruct (prepare_move_unsorted _ _ EP) as [_ NP]. rewrite move_unfold, unsorted, EP, then_ok in H.
  set (Q := match P with FirstChild => FirstSibling | LastChild => LastSibling | _ => SortedSibling end).
  assert (SQ : Q <> SortedSibling /\ is_sib_pos Q) by (destruct P; try discriminate SP; try congruence; split; cbn; auto; discriminate).
  assert (E0 : NS.move_target (ns_rows db) (o_row node) (fresh tg) P = query (Ok (None, fresh c, Q))).
  { unfold NS.move_target, move_target. rewrite row_fresh, (proj2 (Nat.eqb_neq _ _) Ne), Lf, Lc. cbn [orb].
    destruct P; try discriminate SP; auto. }
  rewrite E0 in H. apply ask_ok in H. destruct H as ([[pa t0] p0] & k0 & m0 & E & H & ->). apply query_ok in E. destruct E as [E ->]. injection E as <- <- <-.
  rewrite row_fresh in H. destruct (is_descendant_of c (o_row node)); [discriminate H|].
  assert (E1 : NS.move_is_noop (ns_rows db) (o_row node) (fresh c) Q = free (Ok false)).
  { unfold NS.move_is_noop. rewrite row_fresh, (proj2 (Nat.eqb_neq _ _) Nc). auto. }
  rewrite E1, then_ok, (noop_ne (o_row node) (fresh c) Nc), (proj2 (Nat.eqb_neq _ _) Nc), orb_false_r in H.
  assert (E2 : forall s, match Q with SortedSibling => s | _ => free (Ok (Q, fresh c)) end = free (Ok (Q, fresh c))) by (intros s; destruct Q; destruct SQ; congruence).
  rewrite E2, then_ok in H. apply ask_ok in H. destruct H as ([p1 t1] & k1 & m & E3 & H & ->).
  apply move_tail in H. destruct H as (v & k & E4 & ->).
  assert (X := hole_cost _ _ c Q _ _ _ L _ _ _ EL eq_refl (proj1 SQ) (proj2 SQ) E3 E4). rewrite Rc in X. unfold Q, ns_move_cost in X.
  destruct P; try discriminate SP; try congruence; lia.
Qed.
End NS.

(** ** Ltree *)
Section LT.
Import LTModel.
Variable cfg : lt_cfg.
Notation sigs db := (length (lt_sig db)).

Lemma lt_add_root_exact db x v n : is_sorted cfg = false -> LT.add_root cfg db x = (Ok v, n) ->
  n = match get_last_root_node (lt_rows db) with None => 2 | Some _ => 3 end.
Proof.
  intros So H. unfold LT.add_root in H. rewrite So in H. steps. subst. destruct (get_last_root_node (lt_rows db)); steps; lia.
Qed.
Lemma lt_add_child_exact db tg x v n : is_sorted cfg = false -> LT.add_child cfg db tg x = (Ok v, n) ->
  n = if is_leaf (lt_rows db) tg then 3 else 5.
Proof.
  intros So H. unfold LT.add_child in H. rewrite So in H. cbv zeta in H. apply ask_ok in H. destruct H as ([d0 r0] & k0 & m0 & E & H & ->).
  apply ask_ok in E. destruct E as (z & k1 & m1 & E1 & E & ->). apply query_ok in E1. destruct E1 as [_ ->].
  rewrite then_ok in E. apply ask_ok in E. destruct E as (lf & k2 & m2 & E2 & E & ->). apply query_ok in E2. destruct E2 as [E2 ->]. injection E2 as <-.
  destruct (is_leaf (lt_rows db) tg); steps; lia.
Qed.
Lemma new_path_exact : forall f db prefix b a m db' q m' n, LT.get_new_path cfg f db prefix b a m = (Ok (db', q, m'), n) ->
  exists k, sigs db' = sigs db + k /\ n = 1 + 4 * k /\ m' = match k with O => m | _ => true end.
Proof.
  induction f as [|f IH]; intros db prefix b a m db' q m' n H; cbn [LT.get_new_path] in H; cbv zeta in H;
    (destruct (match falsy (label_of b) with Some _ => _ | None => _ end); [discriminate H|]);
    apply ask_ok in H; destruct H as (si & k1 & n1 & E1 & H & ->); apply query_ok in E1; destruct E1 as [_ ->];
    (destruct (generate_path _ _ _ _) as [w|e]; [steps; subst; exists 0; repeat split; lia|]);
    destruct e; try discriminate H.
  - apply ask_ok in H. destruct H as (st & k2 & n2 & _ & H & ->). apply ask_ok in H. destruct H as (d1 & k3 & n3 & E3 & H & ->).
    apply ask_ok in H. destruct H as (st' & k4 & n4 & E4 & H & ->). discriminate H.
  - apply ask_ok in H. destruct H as (st & k2 & n2 & E2 & H & ->). apply free_ok in E2. destruct E2 as [_ ->].
    apply ask_ok in H. destruct H as (d1 & k3 & n3 & E3 & H & ->).
    assert (D : sigs d1 = S (sigs db) /\ k3 = 2).
    { unfold LT.move_subtree_right in E3. cbv zeta in E3. steps. subst. cbn [lt_sig]. rewrite app_length. cbn. split; lia. }
    apply ask_ok in H. destruct H as (st' & k4 & n4 & E4 & H & ->). apply query_ok in E4. destruct E4 as [_ ->].
    apply IH in H. destruct H as (k & A & B & C). exists (S k). repeat split; try lia. destruct k; auto.
Qed.
(** Sorted places are looked for with one statement or two. *)
Definition finds (P : pos) (b : option ltrow) : nat := match P, b with SortedSibling, Some _ => 2 | SortedChild, Some _ => 2 | _, _ => 1 end.
Lemma neighbours_exact t tg P d b a n : LT.neighbours cfg t tg P d = (Ok (b, a), n) -> n = finds P b.
Proof.
  intros H. unfold LT.neighbours in H. destruct P; cbn [finds]; try (steps; subst; cbn [finds]; lia);
    apply ask_ok in H; destruct H as (c & k & m & E & H & ->); apply query_ok in E; destruct E as [_ ->]; destruct c; steps; subst; cbn [finds]; lia.
Qed.
Lemma lt_add_sibling_exact db tg p P x db' r n : prepare_pos_add (is_sorted cfg) p = Ok P -> LT.add_sibling cfg db tg p x = (Ok (db', r), n) ->
  exists k b, sigs db' = sigs db + k /\ n = finds P b + 4 * k + 2 /\ fst (neighbours cfg (lt_rows db) tg P (new_data x)) = b.
Proof.
  intros EP H. unfold LT.add_sibling in H. apply ask_ok in H. destruct H as ([d0 r0] & k0 & n0 & E0 & H & ->).
  unfold LT.add_sibling_body in E0. rewrite EP, then_ok in E0.
  apply ask_ok in E0. destruct E0 as ([b a] & k1 & n1 & E1 & E0 & ->). assert (N := lt_neighbours cfg (lt_rows db) tg P (new_data x)). rewrite E1 in N. cbn [fst] in N. injection N as N.
  apply neighbours_exact in E1. apply ask_ok in E0. destruct E0 as ([[d1 np] mv] & k2 & n2 & E2 & E0 & ->). apply new_path_exact in E2.
  destruct E2 as (k & A & B & _). exists k, b. rewrite <- N. split; [|split; [steps; lia|auto]].
  steps. subst. match goal with H : commit _ = _ |- _ => unfold commit in H; destruct (unique_paths _); [injection H as <-|discriminate H] end. cbn [lt_sig]. auto.
Qed.
Lemma lt_move_exact db node tg p P db' r n : prepare_pos_move (is_sorted cfg) p = Ok P -> LT.move cfg db node tg p = (Ok (db', r), n) ->
  exists k b, sigs db' = sigs db + k + 1 /\ n = finds P b + 4 * k + (if k =? 0 then 0 else 1) + 3 /\ fst (neighbours cfg (lt_rows db) tg P (l_data node)) = b.
Proof.
  intros EP H. unfold LT.move in H. rewrite EP, then_ok in H. cbv zeta in H.
  destruct (_ && _); [discriminate H|]. destruct (is_descendant_of _ _); [discriminate H|].
  apply ask_ok in H. destruct H as ([b a] & k1 & n1 & E1 & H & ->). assert (N := lt_neighbours cfg (lt_rows db) tg P (l_data node)). rewrite E1 in N. cbn [fst] in N. injection N as N.
  apply neighbours_exact in E1. apply ask_ok in H. destruct H as ([[d1 np] mv] & k2 & n2 & E2 & H & ->). apply new_path_exact in E2.
  destruct E2 as (k & A & B & C). exists k, b. rewrite <- N.
  apply ask_ok in H. destruct H as (nd & k3 & n3 & E3 & H & ->).
  assert (k3 = if k =? 0 then 0 else 1) as -> by (destruct k; subst mv; [apply free_ok in E3|apply query_ok in E3]; tauto).
  split; [|split; [steps; lia|auto]].
  steps. subst. match goal with H : commit _ = _ |- _ => unfold commit in H; destruct (unique_paths _); [injection H as <-|discriminate H] end. cbn [lt_sig]. rewrite app_length. cbn [length]. lia.
Qed.
End LT.

(** ** Deletions: the statements of MPModel.delete_statements and NSModel.delete_queryset *)
Section Delete.
Lemma dedup_len l : length (MPModel.dedup_paths l) <= length l.
Proof.
  unfold MPModel.dedup_paths. induction l as [|a l IH]; cbn [fold_right length]; auto.
  match goal with |- context [if ?b then _ else _] => destruct b end; cbn [length]; lia.
Qed.
Lemma minimal_len cfg l : forall acc, length (MPModel.minimal_removed cfg acc l) <= length acc + length l.
Proof.
  induction l as [|a l IH]; intros acc; cbn [MPModel.minimal_removed length]; [lia|]. destruct (MPModel.has_removed_ancestor _ _ _).
  - specialize (IH acc). lia.
  - specialize (IH (acc ++ [a])). rewrite app_length in IH. cbn in IH. lia.
Qed.
Lemma mp_delete_most cfg t sel : length (MPModel.delete_statements cfg t sel) <= 1 + length (filter sel t).
Proof.
  unfold MPModel.delete_statements. rewrite app_length, map_length. cbn [length]. unfold MPModel.parents_of_removed.
  assert (A := dedup_len (filter (fun p => match p with [] => false | _ => true end) (map (MPModel.parent_path_of cfg)
    (MPModel.minimal_removed cfg [] (isort MPModel.depth_path_le (filter sel t)))))).
  assert (B := filter_length_le (fun p : MPModel.path => match p with [] => false | _ => true end) (map (MPModel.parent_path_of cfg)
    (MPModel.minimal_removed cfg [] (isort MPModel.depth_path_le (filter sel t))))).
  rewrite map_length in B.
  assert (C := minimal_len cfg (isort MPModel.depth_path_le (filter sel t)) []). cbn [length] in C.
  rewrite (Permutation.Permutation_length (isort_perm _ _)) in C. lia.
Qed.
Lemma ranges_len l : forall last, length (NSModel.delete_ranges last l) <= length l.
Proof. induction l as [|a l IH]; intros last; cbn [NSModel.delete_ranges length]; auto. destruct (match last with Some _ => _ | None => _ end); cbn [length]; [specialize (IH last)|specialize (IH (Some a))]; lia. Qed.
Lemma ns_delete_most db sel : length (concat (CrashModel.ns_delete_transactions db sel)) <= 1 + length (filter sel (NSModel.ns_rows db)).
Proof.
  unfold CrashModel.ns_delete_transactions. cbv zeta. assert (A := ranges_len (NSModel.order_rows (filter sel (NSModel.ns_rows db))) None).
  unfold NSModel.order_rows at 2 in A. rewrite (Permutation.Permutation_length (isort_perm _ _)) in A.
  destruct (NSModel.delete_ranges None _) as [|g l]; [cbn; lia|]. cbn [concat].
  rewrite app_length. cbn [length]. 
  assert (L : forall A (f : A -> NSModel.ns_db -> NSModel.ns_db) k, length (concat (map (fun x => [f x]) k)) = length k) by (induction k; cbn; auto).
  rewrite (L _ (fun x d => let '(tree, lft, rgt) := x in NSModel.close_gap d lft rgt tree)). unfold NSModel.sort_ranges.
  rewrite (Permutation.Permutation_length (isort_perm _ _)). lia.
Qed.
End Delete.
