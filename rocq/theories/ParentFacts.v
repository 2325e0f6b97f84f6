(** Node objects that remember their parent: the specification and the proof (C63). *)
From Coq Require Import String List Arith Lia Bool ZArith Permutation.
From Verif Require Import Prelude Forest NumConv SpecFacts SpecSane SpecKids SpecRun CommonModel Order History Grows SessionModel Session ParentModel
  MPModel MPInv MPHist SessionMP.
From Verif Require PropsMP BulkMP ALCache.
Import ListNotations.

(** ** Specification

    get_parent() returns the parent that the node has in the tree.  Whether an object remembers a
    parent: [No], [Yes], or [Maybe], after a move that may or may not have had something to do. *)
Inductive hold := No | Maybe | Yes.
Record psess := mkPS { p_sess : sess; p_hold : nat -> hold; p_out : list (option nat) }.
Definition pstart (F : forest node) : psess := mkPS (start F) (fun _ => No) [].

Definition less (h : hold) : hold := match h with Yes => Maybe | h => h end.
Definition setf {A} (f : nat -> A) (n : nat) (x : A) (u : nat) : A := if u =? n then x else f u.

(** Which objects remember a parent after a statement: a new child does, unless it is inserted in
    order among others; the objects that a move refreshes do not. *)
Definition hold_after (o : ordering) (s : psess) (c : cmd) : nat -> hold :=
  let s0 := p_sess s in
  let n := length (s_names s0) in
  match c with
  | Fetch _ | NewRoot _ | NewSib _ _ _ => setf (p_hold s) n No
  | NewChild u _ => setf (p_hold s) n (if sorts o && has_kids (s_tree s0) (who s0 u) then No else Yes)
  | MoveTo u w p => fun v =>
      if (v =? u) || ((v =? w) && negb (to_child o p && has_kids (s_tree s0) (who s0 w))) then less (p_hold s v) else p_hold s v
  | Remove _ => p_hold s
  end.

Definition sp_pstep (o : ordering) (s : psess) (c : pcmd) : res psess :=
  let s0 := p_sess s in
  match c with
  | Do c => do s' <- sp_step o (mp_after o) s0 c; Ok (mkPS s' (hold_after o s c) (p_out s))
  | Parent u _ =>
      match parent_of (who s0 u) (s_tree s0) with
      | Some q => Ok (mkPS s0 (match q with Some _ => setf (p_hold s) u Yes | None => p_hold s end) (p_out s ++ [q]))
      | None => Err DoesNotExist
      end
  | Reload u =>
      if has (who s0 u) (s_tree s0)
      then Ok (mkPS (mkSess (s_tree s0) (s_names s0) (also (s_stat s0) u Held)) (setf (p_hold s) u No) (p_out s))
      else Err DoesNotExist
  end.

(** No object, but for [u], of the node [k] remembers a parent. *)
Definition none_holds (s : psess) (k : nat) (u : option nat) : Prop :=
  forall v, v < length (s_names (p_sess s)) -> who (p_sess s) v = k -> u <> Some v -> p_hold s v = No.

(** What a careful program does: statements as in C53; a node is moved by an object while no other
    object of the same node remembers its parent; a primary key is not used again while an object
    of the deleted node remembers its parent; get_parent is called on an object in order, or on one
    that remembers and without update=True. *)
Definition pcareful (o : ordering) (s : psess) (c : pcmd) : Prop :=
  let s0 := p_sess s in
  match c with
  | Do c => careful true o s0 c /\
      match c with
      | MoveTo u _ _ => none_holds s (who s0 u) (Some u)
      | NewRoot x | NewChild _ x | NewSib _ _ x => none_holds s (nid x) None
      | _ => True
      end
  | Parent u update =>
      u < length (s_names s0) /\ In (who s0 u) (ids (s_tree s0)) /\
      (current (s_stat s0 u) = true \/ (update = false /\ p_hold s u = Yes))
  | Reload u => u < length (s_names s0)
  end.

Fixpoint pcareful_run (o : ordering) (s : psess) (cs : list pcmd) : Prop :=
  match cs with
  | [] => True
  | c :: cs => pcareful o s c /\ match sp_pstep o s c with Ok s => pcareful_run o s cs | Err _ => True end
  end.

(** ** Parents of the nodes that are not moved *)
Lemma has_parent i F : wf_ids F -> In i (ids F) -> exists q, parent_of i F = Some q.
Proof.
  intros W Hi. destruct (anc_parent i F W Hi) as (A & _ & [(E & _)|(a & A' & E & _)]); eauto.
Qed.

Lemma exec_parent o F G c i : wf_ids F -> fresh_call F c -> sp_exec o F c = Ok G -> In i (ids F) -> In i (ids G) ->
  (forall t p, c <> CMove i t p) -> parent_of i G = parent_of i F.
Proof.
  intros W Fr E Hi Hg Nm. destruct (sp_exec_ids o F c G W Fr E) as (Wg & _).
  destruct (has_parent i F W Hi) as (p & Ep), (has_parent i G Wg Hg) as (q & Eq). rewrite Ep, Eq.
  destruct c as [x|t x|t ps x|n t ps|l].
  - f_equal. symmetry. eapply (grows_parent F G i); eauto. eapply adds_grow; eauto. exact Logic.I.
  - f_equal. symmetry. eapply (grows_parent F G i); eauto. eapply adds_grow; eauto. exact Logic.I.
  - f_equal. symmetry. eapply (grows_parent F G i); eauto. eapply adds_grow; eauto. exact Logic.I.
  - cbn [sp_exec] in E. destruct (has n F) eqn:E1; [|discriminate]. destruct (has t F) eqn:E2; [|discriminate]. cbn [andb] in E.
    destruct (prepare_pos_move (sorts o) ps) as [P|] eqn:EP; [|discriminate]. cbn [bind sp_call] in E. rewrite EP in E.
    destruct (insideb F n t P) eqn:Ei; [discriminate|]. injection E as <-.
    apply has_spec in E1, E2. apply insideb_false in Ei.
    destruct (ALCache.move_parents n t P _ F W E1 E2 Ei Wg) as (_ & H). destruct (H i) as (_ & X); auto.
    { intros ->. apply (Nm t ps). auto. }
    congruence.
  - f_equal. cbn [sp_exec sp_call] in E. injection E as <-. eapply (grows_parent _ F i); eauto. apply remove_grows.
Qed.

(** ** Materialized path *)
Section MP.
Variable cfg : mp_cfg.
Hypothesis radix2 : 2 <= radix cfg.
Hypothesis step1 : 1 <= steplen cfg.
Notation o := (order_by cfg).

Definition deep (r : mprow) : Prop := (length (m_path r) / steplen cfg <=? 1) = false.
Definition up_name (names : list nat) (up : mp_up) : option nat :=
  match up with MNone => None | MShared v => nth_error names v | MOwn r => Some (m_pk r) end.

(** What is known of an object [r] with cached parent [up], of the node [k]. *)
Definition up_fine (F : forest node) (names : list nat) (h : hold) (k : nat) (r : mprow) (up : mp_up) : Prop :=
  (h = No -> up = MNone) /\ (h = Yes -> up <> MNone) /\
  (up <> MNone -> deep r /\ (In k (ids F) -> exists q, up_name names up = Some q /\ parent_of k F = Some (Some q))).
Definition ups_fine (F : forest node) (names : list nat) (hd : nat -> hold) (l : list mprow) (ups : list mp_up) : Prop :=
  length ups = length l /\ forall u r up, nth_error l u = Some r -> nth_error ups u = Some up -> up_fine F names (hd u) (m_pk r) r up.

Definition mp_prel (st : mp_psess) (s : psess) : Prop :=
  mp_srel cfg (mpp_s st) (p_sess s) /\ mpp_out st = p_out s /\
  ups_fine (s_tree (p_sess s)) (s_names (p_sess s)) (p_hold s) (mp_objs (mpp_s st)) (mpp_up st).
Definition mp_pok (st : mp_psess) (s : psess) (c : pcmd) : Prop :=
  pcareful o s c /\ match c with Do (MoveTo _ _ _) => roomy cfg (db_rows (mp_now (mpp_s st))) | _ => True end.

Lemma parent_deep t F r k : stores cfg t F -> In r t -> parent_of (m_pk r) F = Some (Some k) -> deep r.
Proof.
  intros S Hr E. destruct (PropsMP.C07_parent cfg radix2 step1 t F r S Hr) as (q & Eq & Ep & _). unfold get_parent in Eq. unfold deep.
  destruct (_ <=? 1); auto. injection Eq as <-. cbn in Ep. congruence.
Qed.

Lemma up_none F names h k r : h <> Yes -> up_fine F names h k r MNone.
Proof. intros H. split; [auto|]. split; [auto|]. intros X. destruct X; auto. Qed.

Lemma name_more names more up q : up_name names up = Some q -> up_name (names ++ more) up = Some q.
Proof. destruct up; cbn; auto. intros E. rewrite nth_error_app1; auto. apply nth_error_Some. congruence. Qed.

(** The tree changes, the object does not move. *)
Lemma up_next F G names more h h' k r r' up : up_fine F names h k r up -> m_path r' = m_path r ->
  (h' = No -> up = MNone) -> (h' = Yes -> h = Yes) ->
  (up <> MNone -> In k (ids G) -> In k (ids F) /\ parent_of k G = parent_of k F) ->
  up_fine G (names ++ more) h' k r' up.
Proof.
  intros (H1 & H2 & H3) Ep A B P. split; auto. split; auto. intros X. destruct (H3 X) as (D & Q). split; [unfold deep in *; rewrite Ep; auto|].
  intros Hk. destruct (P X Hk) as (HF & E). destruct (Q HF) as (q & E1 & E2). exists q. split; [apply name_more; auto|]. congruence.
Qed.

(** What [move] leaves of its objects *)
Lemma move_objs db n t p db' n' t' : move cfg db n t p = Ok (db', n', t') ->
  if mp_returns cfg db n t p then db' = db /\ n' = n /\ m_path t' = m_path t
  else mp_other cfg t p = true -> m_path t' = m_path t.
Proof.
  unfold move, mp_returns, mp_other. destruct (prepare_pos_move (is_sorted cfg) p) as [P|]; cbn [bind]; [|discriminate].
  destruct (move_to_child_vars cfg (db_rows db) n t P) as [[[[[[t1 d] sb] np] P1] ut]|] eqn:Ev; cbn [bind]; [|discriminate].
  assert (Eu : m_path ut = m_path t).
  { clear -Ev. unfold move_to_child_vars in Ev.
    destruct P; try (injection Ev as _ _ _ _ _ <-; auto; fail); destruct (m_pk t =? m_pk n); try discriminate; destruct (is_leaf t);
      try (injection Ev as _ _ _ _ _ <-; auto; fail); destruct (opt_res _ _); cbn [bind] in Ev; try discriminate; injection Ev as _ _ _ _ _ <-; auto. }
  destruct (is_descendant_of t1 n); [discriminate|].
  destruct (move_prepare cfg (db_rows db) n t1 d P1 np sb) as [[[[p2 np2] sb2]|]|]; cbn [bind]; [| |discriminate].
  - match goal with |- bind ?z _ = _ -> _ => destruct z as [[[[db1 op] np3] tp]|]; cbn [bind]; [|discriminate] end.
    match goal with |- bind ?z _ = _ -> _ => destruct z as [nn|]; cbn [bind]; [|discriminate] end.
    match goal with |- bind ?z _ = _ -> _ => destruct z as [tt|]; cbn [bind]; [|discriminate] end.
    intros H. injection H as <- <- <-. destruct P; intros X; try discriminate X; rewrite X; auto.
  - intros H. injection H as <- <- <-. auto.
Qed.

Lemma sp_step_inv after s c s' : sp_step o after s c = Ok s' -> s_stat s' = after s c /\
  ((exists k, c = Fetch k /\ s_tree s' = s_tree s /\ s_names s' = s_names s ++ [k]) \/
   exists call, call_of (s_names s) c = Some call /\ sp_exec o (s_tree s) call = Ok (s_tree s') /\ s_names s' = s_names s ++ new_ids call).
Proof.
  intros E. destruct c as [k|x|u x|u p x|u w p|u]; cbn [sp_step] in E.
  1:{ destruct (has k (s_tree s)); [|discriminate]. injection E as <-. eauto 8. }
  all: match type of E with match ?z with _ => _ end = _ => destruct z as [call|] eqn:Ec; [|discriminate] end;
    destruct (sp_exec o (s_tree s) call) as [G|] eqn:Ex; cbn [bind] in E; [|discriminate]; injection E as <-; split; auto; right; exists call; auto.
Qed.

(** A node that an object remembers the parent of, and that is not moved *)
Lemma stay_next s c s' v h : wf_ids (s_tree s) -> careful true o s c -> sp_step o (mp_after o) s c = Ok s' ->
  match c with
  | MoveTo u _ _ => who s v <> who s u
  | NewRoot x | NewChild _ x | NewSib _ _ x => who s v <> nid x
  | _ => True
  end -> h = who s v -> In h (ids (s_tree s')) -> In h (ids (s_tree s)) /\ parent_of h (s_tree s') = parent_of h (s_tree s).
Proof.
  intros W [_ Nw] E Hv -> Hi. destruct (sp_step_inv _ _ _ _ E) as (_ & [(k & -> & Et & _)|(call & Ec & Ex & _)]).
  { rewrite Et in *. auto. }
  assert (Fr : fresh_call (s_tree s) call).
  { intros i Hn. destruct c as [k|x|u x|u p x|u w p|u]; cbn [call_of] in Ec; cbn [new_node] in Nw.
    - discriminate.
    - injection Ec as <-. destruct Hn as [<-|[]]. apply Nw.
    - destruct (nth_error _ u); [|discriminate]. injection Ec as <-. destruct Hn as [<-|[]]. apply Nw.
    - destruct (nth_error _ u); [|discriminate]. injection Ec as <-. destruct Hn as [<-|[]]. apply Nw.
    - destruct (nth_error _ u); [|discriminate]. destruct (nth_error _ w); [|discriminate]. injection Ec as <-. destruct Hn.
    - destruct (nth_error _ u); [|discriminate]. injection Ec as <-. destruct Hn. }
  assert (Hf : In (who s v) (ids (s_tree s))).
  { assert (X := Hi). rewrite (sp_exec_ok _ _ _ _ Ex) in X. apply sp_call_ids in X. destruct X as [X|X]; auto.
    destruct c as [k|x|u x|u p x|u w p|u]; cbn [call_of] in Ec.
    - discriminate.
    - injection Ec as <-. destruct X as [X|[]]. congruence.
    - destruct (nth_error _ u); [|discriminate]. injection Ec as <-. destruct X as [X|[]]. congruence.
    - destruct (nth_error _ u); [|discriminate]. injection Ec as <-. destruct X as [X|[]]. congruence.
    - destruct (nth_error _ u); [|discriminate]. destruct (nth_error _ w); [|discriminate]. injection Ec as <-. destruct X.
    - destruct (nth_error _ u); [|discriminate]. injection Ec as <-. destruct X. }
  split; auto. apply (exec_parent o (s_tree s) (s_tree s') call); auto.
  intros t p ->. destruct c as [k|x|u x|u q x|u w q|u]; cbn [call_of] in Ec; try discriminate; try (destruct (nth_error _ u); discriminate).
  destruct (nth_error (s_names s) u) as [a|] eqn:Eu; [|discriminate]. destruct (nth_error _ w); [|discriminate]. injection Ec as Ea _ _.
  apply Hv. subst a. unfold who at 2. rewrite (nth_error_nth _ _ _ Eu). auto.
Qed.

Lemma child_objs db t x db' r t' : add_child cfg db t x = Ok (db', r, t') ->
  m_path t' = m_path t /\ m_pk t' = m_pk t /\ exists n, get_by_pk (db_rows db) (m_pk t) = Ok n.
Proof.
  unfold add_child. destruct (get_by_pk (db_rows db) (m_pk t)) as [n|]; cbn [bind]; [|discriminate].
  destruct (is_sorted cfg && negb (is_leaf n)).
  - destruct (opt_res (get_last_child cfg (db_rows db) n) AttributeError) as [l|]; cbn [bind]; [|discriminate].
    destruct (add_sibling cfg db l _ _) as [[? ?]|]; cbn [bind]; [|discriminate]. intros E. injection E as _ _ <-. eauto.
  - match goal with |- bind ?z _ = _ -> _ => destruct z; cbn [bind]; [|discriminate] end.
    match goal with |- bind ?z _ = _ -> _ => destruct z; cbn [bind]; [|discriminate] end. intros E. injection E as _ _ <-. eauto.
Qed.

Lemma srel_wf st s : mp_srel cfg st s -> wf_ids (s_tree s).
Proof. intros (((f & _ & _ & _ & W) & _) & _). auto. Qed.
Lemma srel_len st s : mp_srel cfg st s -> length (s_names s) = length (mp_objs st).
Proof. intros (_ & <- & _). apply map_length. Qed.
Lemma srel_who st s u r : mp_srel cfg st s -> nth_error (mp_objs st) u = Some r -> who s u = m_pk r.
Proof. intros (_ & N & _) E. apply (nth_names m_pk _ _ _ _ N E). Qed.

(** A statement that appends one object, and leaves the others where they are *)
Lemma ups_append st s c s' l' rn upn hn : mp_srel cfg (mpp_s st) (p_sess s) -> pcareful o s (Do c) ->
  sp_step o (mp_after o) (p_sess s) c = Ok s' -> match c with MoveTo _ _ _ | Remove _ => False | _ => True end ->
  length l' = length (mp_objs (mpp_s st)) ->
  (forall u r', nth_error l' u = Some r' -> exists r, nth_error (mp_objs (mpp_s st)) u = Some r /\ m_pk r' = m_pk r /\ m_path r' = m_path r) ->
  ups_fine (s_tree (p_sess s)) (s_names (p_sess s)) (p_hold s) (mp_objs (mpp_s st)) (mpp_up st) ->
  up_fine (s_tree s') (s_names s') hn (m_pk rn) rn upn ->
  ups_fine (s_tree s') (s_names s') (setf (p_hold s) (length (s_names (p_sess s))) hn) (l' ++ [rn]) (mpp_up st ++ [upn]).
Proof.
  intros R [Ca Cm] E Hc Ll Hl [Lu U] Un. split; [rewrite !app_length; cbn; lia|]. intros u r up Er Eup.
  assert (Ln := srel_len _ _ R). unfold setf.
  apply snoc_nth in Er. apply snoc_nth in Eup. destruct Er as [[H1 Er]|[-> ->]].
  - destruct Eup as [[_ Eup]|[X _]]; [|lia]. destruct (Nat.eqb_spec u (length (s_names (p_sess s)))); [lia|].
    destruct (Hl u r Er) as (r0 & E0 & Ek & Ep). rewrite Ek. assert (Uf := U u r0 up E0 Eup).
    destruct (sp_step_inv _ _ _ _ E) as (_ & Sh).
    assert (Nm : exists more, s_names s' = s_names (p_sess s) ++ more) by (destruct Sh as [(k & _ & _ & N)|(call & _ & _ & N)]; eauto).
    destruct Nm as (more & ->). eapply up_next; eauto; [apply Uf|]. intros Hu Hg.
    apply (stay_next (p_sess s) c s' u); auto; [eapply srel_wf; eauto| |symmetry; eapply srel_who; eauto].
    assert (Lt : u < length (s_names (p_sess s))) by lia.
    destruct c; try exact Logic.I; try destruct Hc; intros X; apply Hu, Uf, (Cm u Lt X); discriminate.
  - destruct Eup as [[X _]|[_ ->]]; [lia|]. rewrite Ll, <- Ln, Nat.eqb_refl. auto.
Qed.

Lemma same_objs (l : list mprow) u r : nth_error l u = Some r -> exists r0, nth_error l u = Some r0 /\ m_pk r = m_pk r0 /\ m_path r = m_path r0.
Proof. eauto. Qed.

Lemma new_pk_of st s : mp_srel cfg st s -> forall l r names k, mp_objs st = l ++ [r] -> s_names s = names ++ [k] -> m_pk r = k.
Proof.
  intros (_ & N & _) l r names k El En. rewrite El, En, map_app in N. cbn in N. apply app_inj_tail in N. apply N.
Qed.

Lemma child_parent s u x s' : wf_ids (s_tree s) -> careful true o s (NewChild u x) -> sp_step o (mp_after o) s (NewChild u x) = Ok s' ->
  wf_ids (s_tree s') -> parent_of (nid x) (s_tree s') = Some (Some (who s u)) /\ nth_error (s_names s) u = Some (who s u) /\ s_names s' = s_names s ++ [nid x].
Proof.
  intros W [(Hi & Hu & _) [Fr _]] E W'. destruct (sp_step_inv _ _ _ _ E) as (_ & [(k & X & _)|(call & Ec & Ex & En)]); [discriminate|].
  cbn [call_of] in Ec. destruct (nth_error (s_names s) u) as [k|] eqn:Ek; [|discriminate]. injection Ec as <-.
  assert (Ew : who s u = k) by (unfold who; apply nth_error_nth; auto). rewrite Ew in *. split; auto.
  rewrite (sp_exec_ok _ _ _ _ Ex) in *. cbn [sp_call] in *.
  destruct (add_child_sane (gt_opt o (ndata x)) k x (s_tree s) W Hi Fr) as (L1 & L2 & A & _).
  apply kl_parent; auto. destruct A as [_ A _ _]. rewrite (kl_kid_list _ _ _ A). apply in_app_iff. right. left. auto.
Qed.

Lemma ups_ok st s c st' s' : mp_prel st s -> pcareful o s (Do c) -> mp_step cfg (mpp_s st) c = Ok st' ->
  sp_step o (mp_after o) (p_sess s) c = Ok s' -> mp_srel cfg st' s' ->
  exists ups, mp_ups cfg (mpp_s st) (mpp_up st) c = Ok ups /\ ups_fine (s_tree s') (s_names s') (hold_after o s c) (mp_objs st') ups.
Proof.
  intros (R & Eo & U) Hc Es E R'. assert (W := srel_wf _ _ R). assert (W' := srel_wf _ _ R'). assert (Ln := srel_len _ _ R).
  assert (NY : No <> Yes) by discriminate.
  destruct c as [k|x|u x|u p x|u w p|u]; cbn [mp_step mp_ups hold_after] in *.
  - destruct (get_by_pk _ k) as [r|]; cbn [bind] in Es; [|discriminate]. injection Es as <-. eexists; split; [reflexivity|].
    apply (ups_append st s _ s' _ r MNone No R Hc E Logic.I eq_refl (same_objs _) U). apply up_none; auto.
  - destruct (add_root _ _ _) as [[db r]|]; cbn [bind] in Es; [|discriminate]. injection Es as <-. eexists; split; [reflexivity|].
    apply (ups_append st s _ s' _ r MNone No R Hc E Logic.I eq_refl (same_objs _) U). apply up_none; auto.
  - destruct (obj (mp_objs (mpp_s st)) u) as [t|] eqn:Et; cbn [bind] in Es |- *; [|discriminate].
    destruct (add_child _ _ _ _) as [[[db r] t']|] eqn:Ea; cbn [bind] in Es; [|discriminate]. injection Es as <-.
    destruct (child_objs _ _ _ _ _ _ Ea) as (E1 & E2 & n & En). rewrite En. cbn [bind]. eexists; split; [reflexivity|].
    unfold obj in Et. destruct (nth_error (mp_objs (mpp_s st)) u) as [t0|] eqn:Et0; [|discriminate]. injection Et as ->.
    assert (Hu : u < length (mp_objs (mpp_s st))) by (apply nth_error_Some; congruence).
    destruct (child_parent _ _ _ _ W (proj1 Hc) E W') as (Par & Nu & Nn).
    assert (St := proj1 (proj1 R)).
    destruct (get_pk_cases cfg _ _ (m_pk t) St) as [[X _]|(n0 & X & Hn & Kn & _)]; [congruence|]. assert (n0 = n) by congruence. subst n0.
    assert (Lf := leaf_kids cfg radix2 step1 _ _ _ St Hn). rewrite Kn, <- (srel_who _ _ _ _ R Et0) in Lf. rewrite Lf.
    change (negb (is_leaf n)) with (negb (m_nc n =? 0)). change (is_sorted cfg) with (sorts o).
    apply (ups_append st s (NewChild u x) s' (put (mp_objs (mpp_s st)) u t') r); auto; [apply put_length| |].
    { intros v r' Ev. rewrite put_nth in Ev. destruct ((v =? u) && _) eqn:B; [|eauto]. injection Ev as <-.
      apply andb_true_iff in B. destruct B as [B _]. apply Nat.eqb_eq in B. subst v. eauto. }
    destruct (sorts o && negb (m_nc n =? 0)); [apply up_none; auto|].
    assert (Kr : m_pk r = nid x) by (eapply new_pk_of; [exact R'|reflexivity|exact Nn]).
    split; [discriminate|]. split; [discriminate|]. intros _. rewrite Kr.
    assert (Hr : In r (db_rows db)).
    { destruct R' as (_ & _ & H). apply (H (length (mp_objs (mpp_s st))) r).
      - cbn [mp_objs]. rewrite nth_error_app2; rewrite put_length; [rewrite Nat.sub_diag; auto|lia].
      - destruct (sp_step_inv _ _ _ _ E) as (-> & _). cbn [mp_after]. unfold only. cbn [find fst]. rewrite Ln, Nat.eqb_refl. auto. }
    split; [eapply (parent_deep db.(db_rows) (s_tree s')); [apply R'|exact Hr|rewrite Kr; exact Par]|].
    intros _. exists (who (p_sess s) u). split; auto. cbn [up_name]. rewrite Nn, nth_error_app1; auto. lia.
  - destruct (obj (mp_objs (mpp_s st)) u) as [t|] eqn:Et; cbn [bind] in Es |- *; [|discriminate].
    destruct (add_sibling _ _ _ _) as [[db r]|]; cbn [bind] in Es; [|discriminate]. injection Es as <-. eexists; split; [reflexivity|].
    apply (ups_append st s _ s' _ r MNone No R Hc E Logic.I eq_refl (same_objs _) U). apply up_none; auto.
  - destruct (obj (mp_objs (mpp_s st)) u) as [n|] eqn:En; cbn [bind] in Es |- *; [|discriminate].
    destruct (obj (mp_objs (mpp_s st)) w) as [t|] eqn:Et; cbn [bind] in Es |- *; [|discriminate].
    destruct (move _ _ _ _) as [[[db n'] t']|] eqn:Em; cbn [bind] in Es; [|discriminate]. injection Es as <-. eexists; split; [reflexivity|].
    unfold obj in En, Et. destruct (nth_error (mp_objs (mpp_s st)) u) as [n0|] eqn:En0; [|discriminate]. injection En as ->.
    destruct (nth_error (mp_objs (mpp_s st)) w) as [t0|] eqn:Et0; [|discriminate]. injection Et as ->.
    assert (Hu : u < length (mp_objs (mpp_s st))) by (apply nth_error_Some; congruence).
    assert (Hw : w < length (mp_objs (mpp_s st))) by (apply nth_error_Some; congruence).
    assert (Mo := move_objs _ _ _ _ _ _ _ Em). destruct U as [Lu U]. destruct Hc as [Ca Cm]. assert (Ca' := Ca). destruct Ca' as [(_ & _ & Cu & Cw) _].
    destruct (sp_step_inv _ _ _ _ E) as (_ & [(k & X & _)|(call & Ec & Ex & Nn)]); [discriminate|].
    assert (Nm : s_names s' = s_names (p_sess s) ++ []).
    { cbn [call_of] in Ec. destruct (nth_error (s_names (p_sess s)) u); [|discriminate]. destruct (nth_error (s_names (p_sess s)) w); [|discriminate].
      injection Ec as <-. auto. }
    assert (Ht : In t (db_rows (mp_now (mpp_s st)))) by (apply (proj2 (proj2 R) w); auto).
    assert (Hn : In n (db_rows (mp_now (mpp_s st)))) by (apply (proj2 (proj2 R) u); auto).
    assert (Oth : to_child o p && has_kids (s_tree (p_sess s)) (who (p_sess s) w) = mp_other cfg t p).
    { rewrite (srel_who _ _ _ _ R Et0), (leaf_kids cfg radix2 step1 _ _ _ (proj1 (proj1 R)) Ht).
      unfold to_child, mp_other. change (sorts o) with (is_sorted cfg). change (negb (m_nc t =? 0)) with (negb (is_leaf t)).
      destruct (prepare_pos_move _ _) as [[]|]; auto. }
    rewrite Oth. rewrite Nm.
    (* the objects, one by one *)
    assert (Old : forall v r0 up h' r, nth_error (mp_objs (mpp_s st)) v = Some r0 -> nth_error (mpp_up st) v = Some up ->
      m_pk r = m_pk r0 -> m_path r = m_path r0 -> v <> u \/ mp_returns cfg (mp_now (mpp_s st)) n t p = true ->
      h' = p_hold s v \/ h' = less (p_hold s v) ->
      up_fine (s_tree s') (s_names (p_sess s) ++ []) h' (m_pk r) r up).
    { intros v r0 up h' r E0 Eup Ek Ep Hv Hh. rewrite Ek. assert (Uf := U v r0 up E0 Eup). eapply up_next; eauto.
      - intros ->. apply Uf. destruct Hh as [<-|Hh]; auto. destruct (p_hold s v); try discriminate; auto.
      - intros ->. destruct Hh as [<-|Hh]; auto. destruct (p_hold s v); discriminate.
      - intros Hup Hg. destruct (Nat.eq_dec (m_pk r0) (m_pk n)) as [Eq|Neq].
        + destruct (Nat.eq_dec v u) as [->|Nvu].
          * destruct Hv as [Hv|Hv]; [congruence|]. rewrite Hv in Mo. destruct Mo as (-> & -> & _).
            rewrite En0 in E0. injection E0 as <-.
            split; [apply (BulkMP.stores_in cfg _ _ _ (proj1 (proj1 R)) Hn)|].
            destruct (PropsMP.C07_parent cfg radix2 step1 _ _ n (proj1 (proj1 R)) Hn) as (q1 & Q1 & P1 & _).
            destruct (PropsMP.C07_parent cfg radix2 step1 _ _ n (proj1 (proj1 R')) Hn) as (q2 & Q2 & P2 & _). cbn [mp_now] in Q2. congruence.
          * exfalso. apply Hup, Uf. apply (Cm v).
            -- rewrite Ln. apply nth_error_Some. congruence.
            -- rewrite (srel_who _ _ _ _ R E0), (srel_who _ _ _ _ R En0). auto.
            -- congruence.
        + apply (stay_next (p_sess s) (MoveTo u w p) s' v); auto.
          * rewrite (srel_who _ _ _ _ R E0), (srel_who _ _ _ _ R En0). auto.
          * symmetry. eapply srel_who; eauto. }
    assert (Pk : forall v r r0, nth_error (put (put (mp_objs (mpp_s st)) u n') w t') v = Some r -> nth_error (mp_objs (mpp_s st)) v = Some r0 -> m_pk r = m_pk r0).
    { intros v r r0 E1 E2. destruct R' as (_ & N' & _). rewrite Nm, app_nil_r in N'. rewrite <- (proj1 (proj2 R)) in N'. cbn [mp_objs] in N'.
      apply (map_nth_error m_pk) in E1. apply (map_nth_error m_pk) in E2. rewrite N' in E1. congruence. }
    assert (LY : forall h, less h <> Yes) by (intros []; discriminate).
    split; [cbn [mp_objs]; rewrite !put_length; destruct (mp_returns _ _ _ _ _); auto; rewrite put_length; destruct (mp_other _ _ _); auto; rewrite put_length; auto|].
    cbn [mp_objs]. intros v r up Er Eup. cbv beta.
    assert (Hv : v < length (mp_objs (mpp_s st))).
    { assert (X : v < length (put (put (mp_objs (mpp_s st)) u n') w t')) by (apply nth_error_Some; congruence). rewrite !put_length in X. auto. }
    destruct (nth_error (mp_objs (mpp_s st)) v) as [r0|] eqn:E0; [|apply nth_error_None in E0; lia].
    assert (Ek := Pk v r r0 Er E0). rewrite !put_nth, !put_length in Er.
    destruct (mp_returns cfg (mp_now (mpp_s st)) n t p) eqn:Rt.
    { destruct Mo as (_ & -> & Tp). apply (Old v r0 up); auto; [|destruct (_ || _); auto].
      destruct (Nat.eqb_spec v w) as [->|]; cbn [andb] in Er.
      - rewrite (proj2 (Nat.ltb_lt _ _) Hw) in Er. injection Er as <-. congruence.
      - destruct (Nat.eqb_spec v u) as [->|]; cbn [andb] in Er; [|congruence]. rewrite (proj2 (Nat.ltb_lt _ _) Hu) in Er. congruence. }
    rewrite put_nth in Eup.
    destruct (Nat.eqb_spec v u) as [->|Nvu]; cbn [orb].
    { cbn [andb] in Eup. assert (Up : up = MNone).
      { destruct (mp_other cfg t p); rewrite ?put_length, Lu, (proj2 (Nat.ltb_lt _ _) Hu) in Eup; congruence. }
      subst up. apply up_none. auto. }
    cbn [andb] in Eup, Er. destruct (Nat.eqb_spec v w) as [->|Nvw]; cbn [andb] in Er |- *.
    + rewrite (proj2 (Nat.ltb_lt _ _) Hw) in Er. injection Er as <-. destruct (mp_other cfg t p) eqn:Ot; cbn [negb].
      * apply (Old w r0 up); auto. rewrite (Mo eq_refl). congruence.
      * rewrite put_nth, Nat.eqb_refl, Lu, (proj2 (Nat.ltb_lt _ _) Hw) in Eup. injection Eup as <-. apply up_none; auto.
    + assert (Eup' : nth_error (mpp_up st) v = Some up).
      { destruct (mp_other cfg t p); auto. rewrite put_nth in Eup. destruct (Nat.eqb_spec v w); [congruence|auto]. }
      apply (Old v r0 up); auto. congruence.
  - destruct (obj (mp_objs (mpp_s st)) u) as [n|] eqn:En; cbn [bind] in Es |- *; [|discriminate]. injection Es as <-. eexists; split; [reflexivity|].
    destruct U as [Lu U]. split; auto. cbn [mp_objs]. intros v r up Er Eup. assert (Uf := U v r up Er Eup).
    destruct (sp_step_inv _ _ _ _ E) as (_ & [(k & X & _)|(call & Ec & Ex & Nn)]); [discriminate|]. rewrite Nn.
    eapply up_next; eauto; [apply Uf|]. intros Hup Hg. destruct Hc as [Ca _].
    apply (stay_next (p_sess s) (Remove u) s' v); auto. symmetry. eapply srel_who; eauto.
Qed.

Definition psame (x : res mp_psess) (y : res psess) : Prop :=
  match x with
  | Ok st => exists s, y = Ok s /\ mp_prel st s
  | Err e => y = Err e \/ (e = PathOverflow /\ exists s, y = Ok s)
  end.

Lemma do_ok st s c : mp_prel st s -> mp_pok st s (Do c) ->
  psame (mp_pstep cfg st (Do c)) (sp_pstep o s (Do c)).
Proof.
  intros P [Ca Rm]. assert (P' := P). destruct P' as (R & Eo & U).
  assert (K : mp_ok cfg (mpp_s st) (p_sess s) c) by (split; [apply Ca|destruct c; exact Rm]).
  assert (G := mp_step_ok cfg radix2 step1 _ _ c R K). cbn [mp_pstep sp_pstep].
  destruct (mp_step cfg (mpp_s st) c) as [st'|e] eqn:Es; cbn [bind same psame] in *.
  - destruct G as (s' & E & R'). destruct (ups_ok st s c st' s' P Ca Es E R') as (ups & Eu & Uf). rewrite Eu, E. cbn [bind same psame].
    eexists. split; [reflexivity|]. split; auto.
  - destruct G as [G|[-> (s' & G)]]; rewrite G; cbn [bind]; [left; auto|right; eauto].
Qed.

Theorem pstep_ok st s c : mp_prel st s -> mp_pok st s c ->
  psame (mp_pstep cfg st c) (sp_pstep o s c).
Proof.
  intros P K. destruct c as [c|u upd|u]; [apply do_ok; auto| |]; destruct P as (R & Eo & [Lu U]), K as [Ca _]; assert (Ln := srel_len _ _ R); assert (W := srel_wf _ _ R).
  - destruct Ca as (Hu & Hi & Hc). cbn [mp_pstep sp_pstep]. unfold mp_parent. rewrite Ln in Hu.
    destruct (obj_ok _ _ Hu) as (n & En & Eb). rewrite Eb. cbn [bind].
    destruct (obj_ok (mpp_up st) u ltac:(lia)) as (up & Eup & Eb'). rewrite Eb'. cbn [bind].
    assert (Uf := U u n up En Eup). assert (Ew := srel_who _ _ _ _ R En). rewrite Ew in *.
    destruct (has_parent _ _ W Hi) as (q & Eq). rewrite Eq.
    assert (Nth : forall up', length (put (mpp_up st) u up') = length (mp_objs (mpp_s st)) /\ forall v r x, nth_error (mp_objs (mpp_s st)) v = Some r ->
      nth_error (put (mpp_up st) u up') v = Some x -> (v = u /\ r = n /\ x = up') \/ (v <> u /\ nth_error (mpp_up st) v = Some x)).
    { intros up'. split; [rewrite put_length; auto|]. intros v r x Er Ex. rewrite put_nth in Ex. destruct (Nat.eqb_spec v u) as [->|]; [|auto].
      rewrite Lu, (proj2 (Nat.ltb_lt _ _) Hu) in Ex. cbn [andb] in Ex. left. repeat split; congruence. }
    (* answered from the cache *)
    assert (Cached : up <> MNone -> exists k, q = Some k /\ up_name (s_names (p_sess s)) up = Some k /\ deep n).
    { intros X. destruct Uf as (_ & _ & Uf). destruct (Uf X) as (D & Y). destruct (Y Hi) as (k & Y1 & Y2). exists k. split; [congruence|auto]. }
    (* answered by a query *)
    assert (Query : current (s_stat (p_sess s) u) = true -> exists qr,
      get_parent cfg (db_rows (mp_now (mpp_s st))) n = Ok qr /\ q = option_map m_pk qr).
    { intros C. assert (Hn := proj2 (proj2 R) u n En C).
      destruct (PropsMP.C07_parent cfg radix2 step1 _ _ n (proj1 (proj1 R)) Hn) as (qr & Q1 & Q2 & _). exists qr. split; auto. congruence. }
    assert (Nmk : mp_up_pk (mp_objs (mpp_s st)) up = up_name (s_names (p_sess s)) up).
    { destruct up as [|v|r]; cbn; auto. rewrite <- (proj1 (proj2 R)). rewrite nth_error_map. auto. }
    destruct (length (m_path n) / steplen cfg <=? 1) eqn:D.
    + cbn [psame]. assert (q = None).
      { destruct Hc as [C|[_ C]].
        - destruct (Query C) as (qr & G & ->). unfold get_parent in G. rewrite D in G. injection G as <-. auto.
        - destruct Uf as (_ & X & _). destruct (Cached (X C)) as (k & _ & _ & X'). unfold deep in X'. congruence. }
      subst q. eexists. split; [reflexivity|]. split; auto. split; [cbn; congruence|]. split; auto.
    + assert (Fromc : up <> MNone -> psame
          (Ok (mkMPP (mpp_s st) (mpp_up st) (mpp_out st ++ [mp_up_pk (mp_objs (mpp_s st)) up])))
          (Ok (mkPS (p_sess s) (match q with Some _ => setf (p_hold s) u Yes | None => p_hold s end) (p_out s ++ [q])))).
      { intros X. destruct (Cached X) as (k & -> & Y & _). cbn [psame]. eexists. split; [reflexivity|]. split; auto. split; [cbn; rewrite Nmk; congruence|].
        split; auto. cbn [mpp_s mpp_up p_hold p_sess]. intros v r x Er Ex. unfold setf. destruct (Nat.eqb_spec v u) as [->|]; [|eauto].
        rewrite Eup in Ex. injection Ex as <-. rewrite En in Er. injection Er as <-. destruct Uf as (U1 & U2 & U3). split; [discriminate|]. auto. }
      assert (Fromq : current (s_stat (p_sess s) u) = true -> psame
          (do r <- get_by_path (db_rows (mp_now (mpp_s st))) (get_basepath cfg (m_path n) (length (m_path n) / steplen cfg - 1));
           Ok (mkMPP (mpp_s st) (put (mpp_up st) u (MOwn r)) (mpp_out st ++ [Some (m_pk r)])))
          (Ok (mkPS (p_sess s) (match q with Some _ => setf (p_hold s) u Yes | None => p_hold s end) (p_out s ++ [q])))).
      { intros C. destruct (Query C) as (qr & G & ->). unfold get_parent in G. rewrite D in G. destruct (get_by_path _ _) as [r|]; cbn [bind] in G |- *; [|discriminate].
        injection G as <-. cbn [option_map psame]. eexists. split; [reflexivity|]. split; auto. split; [cbn; congruence|].
        cbn [mpp_s mpp_up p_hold p_sess]. destruct (Nth (MOwn r)) as (N1 & N2). split; auto. intros v r0 x Er Ex. unfold setf.
        destruct (N2 v r0 x Er Ex) as [(-> & -> & ->)|(Nv & Ex')].
        - rewrite Nat.eqb_refl. split; [discriminate|]. split; [discriminate|]. intros _. split; auto. intros _. exists (m_pk r). auto.
        - destruct (Nat.eqb_spec v u); [congruence|eauto]. }
      destruct Hc as [C|[-> C]].
      * destruct up, upd; auto; apply Fromc; discriminate.
      * destruct Uf as (_ & X & _). destruct up; [exfalso; apply (X C); auto| |]; apply Fromc; discriminate.
  - assert (Hu := Ca). cbn [mp_pstep sp_pstep pcareful] in *. rewrite Ln in Hu.
    destruct (obj_ok _ _ Hu) as (n & En & Eb). rewrite Eb. cbn [bind]. rewrite (srel_who _ _ _ _ R En) in *.
    destruct (get_pk_cases cfg _ _ (m_pk n) (proj1 (proj1 R))) as [[E Hk]|(r & E & Hr & Er & Hk)]; rewrite E; cbn [bind same psame].
    { apply has_false in Hk. rewrite Hk. auto. }
    rewrite (proj2 (has_spec _ _) Hk). eexists. split; [reflexivity|]. destruct R as (R1 & R2 & R3).
    split; [|split]; auto; cbn [mpp_s mpp_up mp_objs mp_now p_sess p_hold s_tree s_names].
    + split; auto. split; cbn [mp_objs s_names mp_now s_stat].
      * rewrite (put_map m_pk _ u r n En Er). auto.
      * intros v y Ey C. rewrite put_nth in Ey. unfold also in C. destruct (Nat.eqb_spec v u) as [->|]; [|cbn [andb] in Ey; eauto].
        rewrite (proj2 (Nat.ltb_lt _ _) Hu) in Ey. cbn [andb] in Ey. injection Ey as <-. auto.
    + split; [cbn [mpp_s mp_objs mpp_up]; rewrite !put_length; auto|]. cbn [mpp_s mp_objs mpp_up]. intros v y x Ey Ex. rewrite put_nth in Ey. rewrite put_nth in Ex. unfold setf. rewrite Lu in Ex.
      destruct (Nat.eqb_spec v u) as [->|]; cbn [andb] in Ey, Ex; [|eauto].
      rewrite (proj2 (Nat.ltb_lt _ _) Hu) in Ey, Ex. injection Ex as <-. apply up_none. discriminate.
Qed.

(** Along a program *)
Fixpoint pall (P : mp_psess -> pcmd -> Prop) (st : mp_psess) (cs : list pcmd) : Prop :=
  match cs with
  | [] => True
  | c :: cs => P st c /\ match mp_pstep cfg st c with Ok st => pall P st cs | Err _ => True end
  end.
Definition proomy (st : mp_psess) (c : pcmd) : Prop :=
  match c with Do (MoveTo _ _ _) => roomy cfg (db_rows (mp_now (mpp_s st))) | _ => True end.

Theorem pplay_ok cs : forall st s, mp_prel st s -> pcareful_run o s cs -> pall proomy st cs ->
  match pplay (mp_pstep cfg) st cs with
  | Ok st' => exists s', pplay (sp_pstep o) s cs = Ok s' /\ mp_prel st' s'
  | Err e => pplay (sp_pstep o) s cs = Err e \/ e = PathOverflow
  end.
Proof.
  induction cs as [|c cs IH]; intros st s R C A; cbn [pplay]; [eauto|]. cbn in C, A. destruct C as [C C'], A as [A A'].
  assert (H := pstep_ok st s c R (conj C A)). destruct (mp_pstep cfg st c) as [st'|e]; cbn [psame bind] in *.
  - destruct H as (s' & E & R'). rewrite E in *. cbn [bind]. apply IH; auto.
  - destruct H as [->|[H _]]; cbn [bind]; auto.
Qed.
End MP.
