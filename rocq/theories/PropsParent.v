(** C63: node.get_parent() of objects that remember their parent. *)
From Coq Require Import String List Arith Lia Bool ZArith.
From Verif Require Import Prelude Forest SpecFacts SpecSane SpecKids CommonModel Order History Fixture SessionModel Session ParentModel ParentFacts.
From Verif Require MPModel MPInv MPHist SessionMP PropsMP.
From Verif Require NSModel NSInv NSAdd NSReads SessionNS PropsNS PropsSession.
Import ListNotations.
Local Open Scope string_scope.
Local Open Scope list_scope.
Local Open Scope nat_scope.

(** Materialized path: in a careful program every call of get_parent has returned the parent that
    the node had in the tree at that time - from the object's memory or from the database -, and
    the other statements have done what they do in C53. *)
Theorem C63_mp_partial cfg db F cs : 2 <= MPModel.radix cfg -> 1 <= MPModel.steplen cfg ->
  let o := MPModel.order_by cfg in
  MPInv.stores cfg (MPModel.db_rows db) F -> ordered o F ->
  pcareful_run o (pstart F) cs -> pall cfg (proomy cfg) (mkMPP (mkMPS db []) [] []) cs ->
  match pplay (mp_pstep cfg) (mkMPP (mkMPS db []) [] []) cs with
  | Ok st => exists s, pplay (sp_pstep o) (pstart F) cs = Ok s /\
      mpp_out st = p_out s /\
      MPInv.stores cfg (MPModel.db_rows (mp_now (mpp_s st))) (s_tree (p_sess s)) /\
      map MPModel.m_pk (mp_objs (mpp_s st)) = s_names (p_sess s)
  | Err e => pplay (sp_pstep o) (pstart F) cs = Err e \/ e = PathOverflow
  end.
Proof.
  intros R1 R2 o S O C A.
  assert (R : mp_prel cfg (mkMPP (mkMPS db []) [] []) (pstart F)).
  { split; [|split]; auto.
    - split; [split; auto|]. split; auto. intros [|u] r; discriminate.
    - split; auto. intros [|u] r up; discriminate. }
  assert (H := pplay_ok cfg R1 R2 cs _ _ R C A). fold o in H. destruct (pplay _ _ cs) as [st|e]; auto.
  destruct H as (s & E & ((S' & _) & N & _) & Eo & _). exists s. auto 6.
Qed.

(** Nested sets: an object which by C53 is in order - with or without a remembered parent -
    answers the parent that the node has. *)
Theorem C63_ns_partial o db F cs st s : NSInv.stores (NSModel.ns_rows db) F -> careful_run true o ns_after (start F) cs ->
  play (ns_step o) (mkNSS db []) cs = Ok st -> play (sp_step o ns_after) (start F) cs = Ok s ->
  forall u c, nth_error (ns_objs st) u = Some c -> current (s_stat s u) = true ->
  exists q, NSModel.get_parent (NSModel.ns_rows (ns_now st)) (ns_read (ns_objs st) c) = Ok q /\
    parent_of (who s u) (s_tree s) = Some (option_map NSModel.n_pk q).
Proof.
  intros S C Es E u c Eu Cu.
  assert (R : SessionNS.ns_srel (mkNSS db []) (start F)).
  { split; auto. split; auto. intros [|v] r; discriminate. }
  assert (K := all_ok_of ns_sess (ns_step o) o ns_after (SessionNS.ns_ok o) SessionNS.ns_srel _
    (SessionNS.ns_step_ok o) true (fun _ _ => True) cs (fun st s c _ X _ => X) _ _ R C).
  assert (H := SessionNS.ns_session_ok o cs _ _ R (K ltac:(generalize (mkNSS db []); clear; induction cs; cbn; auto; intros n; split; auto; destruct (ns_step o n a); auto))).
  rewrite Es in H. destruct H as (s' & E' & S' & N & I). assert (s' = s) by congruence. subst s'.
  assert (G := SessionNS.fine_good _ _ _ _ (I u c Eu) Cu). destruct G as [G1 G2].
  assert (Ew : who s u = NSModel.n_pk (c_row c)) by (apply (nth_names (fun c => NSModel.n_pk (c_row c)) _ _ _ _ N Eu)).
  destruct (NSReads.parent_read _ _ (c_row c) S' G1) as (q & Eq & Ep & _). exists q. rewrite Ew. split; auto.
  unfold NSModel.get_parent in Eq |- *. cbn [NSModel.fresh NSModel.o_row NSModel.o_up] in Eq.
  change (NSModel.o_row (ns_read (ns_objs st) c)) with (c_row c) in *.
  destruct (NSModel.is_root (c_row c)); auto. destruct (NSModel.o_up (ns_read (ns_objs st) c)) as [p|] eqn:Up; auto.
  rewrite (G2 p eq_refl) in Eq. auto.
Qed.

(** ** Programs *)
(** The conditions on a program, decided *)
Definition none_holdsb (s : psess) (k : nat) (u : option nat) : bool :=
  forallb (fun v => negb (who (p_sess s) v =? k) || match u with Some w => w =? v | None => false end ||
                    match p_hold s v with No => true | _ => false end) (seq 0 (length (s_names (p_sess s)))).
Definition carefulb (o : ordering) (s : sess) (c : cmd) : bool :=
  let n := length (s_names s) in
  match c with
  | Fetch _ | NewRoot _ => true
  | NewChild u _ => has (who s u) (s_tree s) && (u <? n)
  | NewSib u _ _ => (u <? n) && current (s_stat s u)
  | MoveTo u w _ => (u <? n) && (w <? n) && current (s_stat s u) && current (s_stat s w)
  | Remove u => u <? n
  end &&
  match new_node c with
  | Some x => negb (has (nid x) (s_tree s)) && forallb (fun e => match fval (ndata x) (fst e) with Some _ => true | None => false end) o
  | None => true
  end.
Definition pcarefulb (o : ordering) (s : psess) (c : pcmd) : bool :=
  let s0 := p_sess s in
  match c with
  | Do c => carefulb o s0 c &&
      match c with
      | MoveTo u _ _ => none_holdsb s (who s0 u) (Some u)
      | NewRoot x | NewChild _ x | NewSib _ _ x => none_holdsb s (nid x) None
      | _ => true
      end
  | Parent u update =>
      (u <? length (s_names s0)) && has (who s0 u) (s_tree s0) &&
      (current (s_stat s0 u) || (negb update && match p_hold s u with Yes => true | _ => false end))
  | Reload u => u <? length (s_names s0)
  end.
Fixpoint pcareful_runb (o : ordering) (s : psess) (cs : list pcmd) : bool :=
  match cs with
  | [] => true
  | c :: cs => pcarefulb o s c && match sp_pstep o s c with Ok s => pcareful_runb o s cs | Err _ => true end
  end.

Ltac bools := repeat match goal with
  | H : _ && _ = true |- _ => apply andb_true_iff in H; destruct H
  | H : (_ <? _) = true |- _ => apply Nat.ltb_lt in H
  | H : has _ _ = true |- _ => apply has_spec in H
  | H : negb (has _ _) = true |- _ => apply negb_true_iff, has_false in H
  end.
Lemma none_holdsb_ok s k u : none_holdsb s k u = true -> none_holds s k u.
Proof.
  unfold none_holdsb. rewrite forallb_forall. intros H v Hv Ew Nu. specialize (H v). rewrite in_seq in H. specialize (H ltac:(lia)).
  rewrite Ew, Nat.eqb_refl in H. cbn [negb orb] in H. destruct (p_hold s v); auto; rewrite orb_false_r in H; destruct u as [w|]; try discriminate;
    apply Nat.eqb_eq in H; congruence.
Qed.
Lemma carefulb_ok o s c : carefulb o s c = true -> careful true o s c.
Proof.
  unfold carefulb, careful. intros H. bools. split.
  - destruct c; bools; auto.
  - destruct (new_node c) as [x|]; auto. bools. split; auto. intros _ i d Hi. rewrite forallb_forall in *.
    match goal with H : forall x, In x o -> _ |- _ => specialize (H (i, d) Hi); cbn [fst] in H; destruct (fval (ndata x) i); congruence end.
Qed.
Lemma pcarefulb_ok o s c : pcarefulb o s c = true -> pcareful o s c.
Proof.
  unfold pcarefulb, pcareful. destruct c as [c|u upd|u]; intros H; bools; auto.
  - split; [apply carefulb_ok; auto|]. destruct c; auto; apply none_holdsb_ok; auto.
  - split; auto. split; auto. match goal with H : _ || _ = true |- _ => apply orb_true_iff in H; destruct H as [H|H]; auto end.
    right. bools. destruct upd; [discriminate|]. split; auto. destruct (p_hold s u); congruence.
Qed.
Lemma careful_prog o cs : forall s, pcareful_runb o s cs = true -> pcareful_run o s cs.
Proof.
  induction cs as [|c cs IH]; intros s H; cbn in *; auto. apply andb_true_iff in H. destruct H as [H1 H2].
  split; [apply pcarefulb_ok; auto|]. destruct (sp_pstep o s c); auto.
Qed.
Ltac careful := apply careful_prog; vm_compute; reflexivity.
Ltac room := vm_compute; repeat split; intros r H; repeat (destruct H as [<-|H]; [apply PropsMP.lt_b; reflexivity|]); destruct H.

(** 4 is fetched and asked for its parent, gets the child 11, and moves to the right of 7; 11 is
    asked before, after, and after a reload; then 11 moves to the root level. *)
Definition mprog : list pcmd :=
  [Do (Fetch 4); Parent 0 false; Do (NewChild 0 (nd 11 1)); Parent 1 false; Do (Fetch 7); Do (MoveTo 0 2 (Some "right")); Parent 0 false; Parent 1 false;
   Reload 1; Parent 1 true; Do (MoveTo 1 0 (Some "right")); Parent 1 false; Do (Fetch 10); Parent 3 true; Do (NewChild 3 (nd 12 2)); Parent 4 false;
   Do (Remove 3); Reload 1; Parent 1 true].
Definition msprog : list pcmd :=
  [Do (Fetch 6); Do (NewChild 0 (nd 11 7)); Parent 1 false; Do (Fetch 4); Parent 2 false; Do (NewChild 2 (nd 12 3)); Parent 3 false;
   Do (Fetch 2); Do (MoveTo 4 2 (Some "sorted-child")); Parent 4 false; Parent 3 false].

Example C63_mp_example :
  pcareful_run [] (pstart ex_F) mprog /\ pall PropsMP.c10 (proomy PropsMP.c10) (mkMPP (mkMPS PropsMP.ex_db []) [] []) mprog /\
  (exists st, pplay (mp_pstep PropsMP.c10) (mkMPP (mkMPS PropsMP.ex_db []) [] []) mprog = Ok st /\
    mpp_out st = [Some 2; Some 4; None; Some 4; Some 4; None; Some 9; Some 10; None]) /\
  pcareful_run so (pstart so_F) msprog /\ pall PropsMP.s10 (proomy PropsMP.s10) (mkMPP (mkMPS PropsMP.so_db []) [] []) msprog /\
  exists st, pplay (mp_pstep PropsMP.s10) (mkMPP (mkMPS PropsMP.so_db []) [] []) msprog = Ok st /\
    mpp_out st = [Some 6; Some 1; Some 4; Some 4; Some 4].
Proof.
  split; [careful|]. split; [room|]. split; [eexists; split; [vm_compute; reflexivity|vm_compute; reflexivity]|].
  split; [careful|]. split; [room|]. eexists; split; [vm_compute; reflexivity|vm_compute; reflexivity].
Qed.

Example C63_ns_example : careful_run true [] ns_after (start ex_F) PropsSession.nprog /\
  exists st s c, play (ns_step []) (mkNSS PropsNS.ex_db []) [Fetch 3; NewChild 0 (nd 11 1)] = Ok st /\
    play (sp_step [] ns_after) (start ex_F) [Fetch 3; NewChild 0 (nd 11 1)] = Ok s /\
    nth_error (ns_objs st) 1 = Some c /\ s_stat s 1 = Tied /\ c_up c = Shared 0 /\
    match NSModel.get_parent (NSModel.ns_rows (ns_now st)) (ns_read (ns_objs st) c) with Ok (Some q) => NSModel.n_pk q = 3 | _ => False end.
Proof.
  split; [PropsSession.careful|]. eexists; eexists; eexists. split; [vm_compute; reflexivity|]. split; [vm_compute; reflexivity|]. repeat split; vm_compute; reflexivity.
Qed.

(** ** What the memory does not know *)

(** The node is moved by another object: the first one goes on answering the old parent. *)
Theorem C63_mp_moved_refuted : exists db F cs st s, MPInv.stores PropsMP.c10 (MPModel.db_rows db) F /\
  pplay (mp_pstep PropsMP.c10) (mkMPP (mkMPS db []) [] []) cs = Ok st /\ pplay (sp_pstep []) (pstart F) cs = Ok s /\
  mpp_out st = [Some 2; Some 2] /\ p_out s = [Some 2; None] /\ In (Parent 0 false) cs.
Proof.
  exists PropsMP.ex_db, ex_F, [Do (Fetch 4); Parent 0 false; Do (Fetch 4); Do (Fetch 7); Do (MoveTo 1 2 (Some "right")); Parent 0 false].
  eexists; eexists. split; [apply PropsMP.ex_stores|]. split; [vm_compute; reflexivity|]. split; [vm_compute; reflexivity|].
  split; [vm_compute; reflexivity|]. split; [vm_compute; reflexivity|]. cbn; auto 10.
Qed.

(** update=True does not help an object whose path is out of date: it asks for the node that is now
    where the parent was. *)
Theorem C63_mp_update_refuted : exists db F cs st s, MPInv.stores PropsMP.c10 (MPModel.db_rows db) F /\
  pplay (mp_pstep PropsMP.c10) (mkMPP (mkMPS db []) [] []) cs = Ok st /\ pplay (sp_pstep []) (pstart F) cs = Ok s /\
  mpp_out st = [Some 2; Some 2; Some 1] /\ p_out s = [Some 2; Some 2; Some 2].
Proof.
  exists PropsMP.ex_db, ex_F, [Do (Fetch 4); Parent 0 false; Do (Fetch 2); Do (Fetch 7); Do (MoveTo 1 2 (Some "left")); Parent 0 false; Parent 0 true].
  eexists; eexists. split; [apply PropsMP.ex_stores|]. split; [vm_compute; reflexivity|]. split; [vm_compute; reflexivity|].
  split; vm_compute; reflexivity.
Qed.

(** Nor does a move of the object itself: where the object says that the node is in its place, move
    returns before it refreshes the object. *)
Theorem C63_mp_stays_refuted : exists db F cs st s, MPInv.stores PropsMP.c10 (MPModel.db_rows db) F /\
  pplay (mp_pstep PropsMP.c10) (mkMPP (mkMPS db []) [] []) (cs ++ [Do (MoveTo 0 0 (Some "left")); Parent 0 false]) = Ok st /\
  pplay (sp_pstep []) (pstart F) (cs ++ [Do (MoveTo 0 0 (Some "left")); Parent 0 false]) = Ok s /\
  mpp_out st = [Some 2; Some 2] /\ p_out s = [Some 2; None].
Proof.
  exists PropsMP.ex_db, ex_F, [Do (Fetch 4); Parent 0 false; Do (Fetch 4); Do (Fetch 7); Do (MoveTo 1 2 (Some "right"))].
  eexists; eexists. split; [apply PropsMP.ex_stores|]. split; [vm_compute; reflexivity|]. split; [vm_compute; reflexivity|].
  split; vm_compute; reflexivity.
Qed.

(** A primary key is used again: the object of the deleted node answers the parent that was. *)
Theorem C63_mp_reused_refuted : exists db F cs st s, MPInv.stores PropsMP.c10 (MPModel.db_rows db) F /\
  pplay (mp_pstep PropsMP.c10) (mkMPP (mkMPS db []) [] []) cs = Ok st /\ pplay (sp_pstep []) (pstart F) cs = Ok s /\
  mpp_out st = [Some 4; Some 4] /\ p_out s = [Some 4; None].
Proof.
  exists PropsMP.ex_db, ex_F, [Do (Fetch 6); Parent 0 false; Do (Remove 0); Do (NewRoot (nd 6 1)); Parent 0 false].
  eexists; eexists. split; [apply PropsMP.ex_stores|]. split; [vm_compute; reflexivity|]. split; [vm_compute; reflexivity|].
  split; vm_compute; reflexivity.
Qed.

(** Nested sets: as for materialized paths. *)
Theorem C63_ns_moved_refuted : exists db F cs st s c r, NSInv.stores (NSModel.ns_rows db) F /\
  play (ns_step []) (mkNSS db []) cs = Ok st /\ play (sp_step [] ns_after) (start F) cs = Ok s /\
  nth_error (ns_objs st) 1 = Some c /\ who s 1 = NSModel.n_pk (c_row c) /\ parent_of (who s 1) (s_tree s) = Some None /\
  NSModel.get_parent (NSModel.ns_rows (ns_now st)) (ns_read (ns_objs st) c) = Ok (Some r).
Proof.
  exists PropsNS.ex_db, ex_F, [Fetch 3; NewChild 0 (nd 11 1); Fetch 11; Fetch 7; MoveTo 2 3 (Some "right")].
  eexists; eexists; eexists; eexists. split; [apply PropsNS.ex_stores|]. split; [vm_compute; reflexivity|]. split; [vm_compute; reflexivity|].
  split; [vm_compute; reflexivity|]. split; [vm_compute; reflexivity|]. split; vm_compute; reflexivity.
Qed.

Print Assumptions C63_mp_partial.
Print Assumptions C63_ns_partial.
Print Assumptions C63_mp_moved_refuted.
Print Assumptions C63_mp_update_refuted.
Print Assumptions C63_mp_stays_refuted.
Print Assumptions C63_mp_reused_refuted.
Print Assumptions C63_ns_moved_refuted.
