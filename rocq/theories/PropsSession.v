(** C53: programs that keep node objects between calls (docs/source/caveats.rst:7-12). *)
From Coq Require Import String List Arith Lia Bool ZArith.
From Verif Require Import Prelude Forest SpecFacts SpecSane SpecKids SpecPerm CommonModel Order History Fixture SessionModel Session.
From Verif Require MPModel MPInv MPReads MPHist SessionMP PropsMP.
From Verif Require NSModel NSInv SessionNS PropsNS.
From Verif Require ALModel ALInv ALAnswers SessionAL PropsAL.
From Verif Require LTModel LTInv LTReads LTHist LTCalm SessionLT PropsLT.
Import ListNotations.
Local Open Scope string_scope.
Local Open Scope list_scope.
Local Open Scope nat_scope.

(** ** The four implementations follow the specification

    A program that is careful in the sense of [careful_run] - which is a matter of the specification
    alone - ends with the tree of the specification, or with the same exception; its objects are
    the nodes they should be, and those that [xx_after] lists have the fields that are stored. *)

(** Materialized path.  Moves need room for the temporary path (as in C05); a path may overflow. *)
Definition mp_roomy (cfg : MPModel.mp_cfg) (st : mp_sess) (c : cmd) : Prop :=
  match c with MoveTo _ _ _ => MPHist.roomy cfg (MPModel.db_rows (mp_now st)) | _ => True end.

Theorem C53_mp_partial cfg db F cs : 2 <= MPModel.radix cfg -> 1 <= MPModel.steplen cfg ->
  let o := MPModel.order_by cfg in
  MPInv.stores cfg (MPModel.db_rows db) F -> ordered o F ->
  careful_run true o (mp_after o) (start F) cs -> all_along _ (mp_step cfg) (mp_roomy cfg) (mkMPS db []) cs ->
  match play (mp_step cfg) (mkMPS db []) cs with
  | Ok st => exists s, play (sp_step o (mp_after o)) (start F) cs = Ok s /\
      MPInv.stores cfg (MPModel.db_rows (mp_now st)) (s_tree s) /\ ordered o (s_tree s) /\
      map MPModel.m_pk (mp_objs st) = s_names s /\
      forall u r, nth_error (mp_objs st) u = Some r -> current (s_stat s u) = true -> In r (MPModel.db_rows (mp_now st))
  | Err e => play (sp_step o (mp_after o)) (start F) cs = Err e \/ e = PathOverflow
  end.
Proof.
  intros R1 R2 o S O C A.
  assert (R : SessionMP.mp_srel cfg (mkMPS db []) (start F)).
  { split; [split; auto|]. split; auto. intros [|u] r; discriminate. }
  assert (K := all_ok_of mp_sess (mp_step cfg) o (mp_after o) (SessionMP.mp_ok cfg) (SessionMP.mp_srel cfg) _
    (SessionMP.mp_step_ok cfg R1 R2) true (mp_roomy cfg) cs (fun st s c _ X Y => conj X Y) _ _ R C A).
  assert (H := SessionMP.mp_session_ok cfg R1 R2 cs _ _ R K). fold o in H.
  destruct (play (mp_step cfg) _ cs) as [st|e]; auto.
  destruct H as (s & E & (S' & O') & N & I). exists s. auto 6.
Qed.

(** Nested sets. *)
Theorem C53_ns_partial o db F cs : NSInv.stores (NSModel.ns_rows db) F -> careful_run true o ns_after (start F) cs ->
  match play (ns_step o) (mkNSS db []) cs with
  | Ok st => exists s, play (sp_step o ns_after) (start F) cs = Ok s /\
      NSInv.stores (NSModel.ns_rows (ns_now st)) (s_tree s) /\
      map (fun c => NSModel.n_pk (c_row c)) (ns_objs st) = s_names s /\
      forall u c, nth_error (ns_objs st) u = Some c -> current (s_stat s u) = true -> In (c_row c) (NSModel.ns_rows (ns_now st))
  | Err e => play (sp_step o ns_after) (start F) cs = Err e
  end.
Proof.
  intros S C.
  assert (R : SessionNS.ns_srel (mkNSS db []) (start F)).
  { split; auto. split; auto. intros [|u] r; discriminate. }
  assert (K := all_ok_of ns_sess (ns_step o) o ns_after (SessionNS.ns_ok o) SessionNS.ns_srel _
    (SessionNS.ns_step_ok o) true (fun _ _ => True) cs (fun st s c _ X _ => X) _ _ R C).
  assert (H := SessionNS.ns_session_ok o cs _ _ R (K ltac:(generalize (mkNSS db []); clear; induction cs; cbn; auto; intros n; split; auto; destruct (ns_step o n a); auto))).
  destruct (play (ns_step o) _ cs) as [st|e]; auto.
  destruct H as (s & E & S' & N & I). exists s. split; auto. split; auto. split; auto. intros u c Eu Cu.
  destruct (SessionNS.fine_good _ _ _ _ (I u c Eu) Cu) as [G _]. exact G.
Qed.

(** Adjacency list. *)
Theorem C53_al_partial o t F cs : ALInv.stores o t F -> careful_run true o (al_after o) (start F) cs ->
  match play (al_step o) (mkALS t []) cs with
  | Ok st => exists s, play (sp_step o (al_after o)) (start F) cs = Ok s /\
      ALInv.stores o (al_now st) (s_tree s) /\
      map (fun c => ALModel.a_pk (ALModel.o_row c)) (al_objs st) = s_names s /\
      forall u c, nth_error (al_objs st) u = Some c -> current (s_stat s u) = true -> In (ALModel.o_row c) (al_now st)
  | Err e => play (sp_step o (al_after o)) (start F) cs = Err e
  end.
Proof.
  intros S C.
  assert (R : SessionAL.al_srel o (mkALS t []) (start F)).
  { split; auto. split; auto. split; [constructor|]. intros [|u] r; discriminate. }
  assert (K := all_ok_of al_sess (al_step o) o (al_after o) (SessionAL.al_ok o) (SessionAL.al_srel o) _
    (SessionAL.al_step_ok o) true (fun _ _ => True) cs (fun st s c _ X _ => X) _ _ R C).
  assert (H := SessionAL.al_session_ok o cs _ _ R (K ltac:(generalize (mkALS t []); clear; induction cs; cbn; auto; intros n; split; auto; destruct (al_step o n a); auto))).
  destruct (play (al_step o) _ cs) as [st|e]; auto.
  destruct H as (s & E & S' & N & _ & I). exists s. auto.
Qed.

(** Ltree.  Children are added to objects in order only; the order of siblings may differ (C30),
    and labels may get too long. *)
Theorem C53_lt_partial cfg db F cs : 2 <= LTModel.label_max cfg -> let o := LTModel.lt_order cfg in
  LTInv.stores cfg (LTModel.lt_rows db) F -> careful_run false o (lt_after o) (start F) cs ->
  match play (lt_step cfg) (mkLTS db []) cs with
  | Ok st => exists s, play (sp_step o (lt_after o)) (start F) cs = Ok s /\
      (exists G, LTInv.stores cfg (LTModel.lt_rows (lt_now st)) G /\ same_kids (s_tree s) G) /\
      map LTModel.l_pk (lt_objs st) = s_names s /\
      forall u r, nth_error (lt_objs st) u = Some r -> current (s_stat s u) = true -> In r (LTModel.lt_rows (lt_now st))
  | Err e => play (sp_step o (lt_after o)) (start F) cs = Err e \/ e = DataError \/ e = ValueError
  end.
Proof.
  intros M o S C. assert (W : wf_ids F) by (destruct S as (? & _ & _ & ?); auto).
  assert (R : SessionLT.lt_srel cfg False (mkLTS db []) (start F)).
  { split; [split; auto; exists F; split; auto; split; [apply same_refl; auto|auto]|]. split; auto. intros [|u] r; discriminate. }
  assert (K := all_ok_of lt_sess (lt_step cfg) o (lt_after o) (SessionLT.lt_ok cfg False) (SessionLT.lt_srel cfg False) _
    (SessionLT.lt_step_ok cfg M False) false (fun _ _ => True) cs (fun st s c _ X _ => conj X (fun F0 : False => match F0 with end)) _ _ R C).
  assert (H := SessionLT.lt_session_ok cfg M False cs _ _ R (K ltac:(generalize (mkLTS db []); clear; induction cs; cbn; auto; intros n; split; auto; destruct (lt_step cfg n a); auto))).
  fold o in H. destruct (play (lt_step cfg) _ cs) as [st|e]; auto.
  destruct H as (s & E & (_ & G & S' & Sk & _) & N & I). exists s. split; auto. split; eauto.
Qed.

(** Exactly the order of the specification where every call is made at a calm place (C30). *)
Definition lt_calm (cfg : LTModel.lt_cfg) (st : lt_sess) (c : cmd) : Prop :=
  match call_of (map LTModel.l_pk (lt_objs st)) c with Some call => LTHist.calm_call cfg (lt_now st) call | None => True end.

Theorem C53_lt_order_partial cfg db F cs : 2 <= LTModel.label_max cfg -> let o := LTModel.lt_order cfg in
  LTInv.stores cfg (LTModel.lt_rows db) F -> careful_run false o (lt_after o) (start F) cs ->
  all_along _ (lt_step cfg) (lt_calm cfg) (mkLTS db []) cs ->
  match play (lt_step cfg) (mkLTS db []) cs with
  | Ok st => exists s, play (sp_step o (lt_after o)) (start F) cs = Ok s /\
      LTInv.stores cfg (LTModel.lt_rows (lt_now st)) (s_tree s) /\
      map LTModel.l_pk (lt_objs st) = s_names s /\
      forall u r, nth_error (lt_objs st) u = Some r -> current (s_stat s u) = true -> In r (LTModel.lt_rows (lt_now st))
  | Err e => play (sp_step o (lt_after o)) (start F) cs = Err e \/ e = DataError \/ e = ValueError
  end.
Proof.
  intros M o S C A. assert (W : wf_ids F) by (destruct S as (? & _ & _ & ?); auto).
  assert (R : SessionLT.lt_srel cfg True (mkLTS db []) (start F)).
  { split; [split; auto; exists F; split; auto; split; [apply same_refl; auto|auto]|]. split; auto. intros [|u] r; discriminate. }
  assert (K := all_ok_of lt_sess (lt_step cfg) o (lt_after o) (SessionLT.lt_ok cfg True) (SessionLT.lt_srel cfg True) _
    (SessionLT.lt_step_ok cfg M True) false (lt_calm cfg) cs).
  assert (X : forall st s c, SessionLT.lt_srel cfg True st s -> careful false o s c -> lt_calm cfg st c -> SessionLT.lt_ok cfg True st s c).
  { intros st s c (_ & N & _) Hc Hl. split; auto. intros _. unfold lt_calm in Hl. rewrite N in Hl. exact Hl. }
  assert (H := SessionLT.lt_session_ok cfg M True cs _ _ R (K X _ _ R C A)).
  fold o in H. destruct (play (lt_step cfg) _ cs) as [st|e]; auto.
  destruct H as (s & E & (_ & G & S' & _ & Ex) & N & I). exists s. rewrite <- (Ex Logic.I). auto.
Qed.

(** ** Careful programs *)
Ltac careful := cbv -[not]; repeat first
  [ exact Logic.I
  | match goal with |- ~ _ => let H := fresh in intros H; repeat (destruct H as [H|H]; [discriminate|]); exact H end
  | match goal with |- _ <= _ => repeat constructor end
  | match goal with |- _ = _ => reflexivity end
  | match goal with |- _ /\ _ => split end
  | match goal with |- _ \/ _ => solve [repeat first [left; reflexivity | right; try reflexivity]] end
  | let N := fresh in let H := fresh in intros N ? ? H; first [congruence
      | repeat (destruct H as [H|H]; [injection H as <- <-; discriminate|]); destruct H] ].

(** 4 is fetched; 11 and 12 are added below it through the same object; 4 moves to the right of 7,
    13 is added below the by then outdated object of 11, 10 is fetched, gets a sibling, is deleted. *)
Definition prog : list cmd :=
  [Fetch 4; NewChild 0 (nd 11 1); NewChild 0 (nd 12 2); Fetch 7; MoveTo 0 3 (Some "right");
   NewChild 1 (nd 13 3); Fetch 10; NewSib 5 (Some "left") (nd 14 4); NewRoot (nd 15 5); Remove 5].
(** ... with node_order_by. *)
Definition sprog : list cmd :=
  [Fetch 6; NewChild 0 (nd 11 7); NewSib 1 None (nd 12 9); Fetch 2; Fetch 12; MoveTo 4 3 (Some "sorted-child"); Remove 1].

Example C53_mp_example :
  careful_run true [] (mp_after []) (start ex_F) prog /\ all_along _ (mp_step PropsMP.c10) (mp_roomy PropsMP.c10) (mkMPS PropsMP.ex_db []) prog /\
  (exists st s, play (mp_step PropsMP.c10) (mkMPS PropsMP.ex_db []) prog = Ok st /\
    play (sp_step [] (mp_after [])) (start ex_F) prog = Ok s /\ map nid (preorder (s_tree s)) = [7; 4; 6; 11; 13; 12; 1; 3; 5; 2; 9; 14; 15] /\
    map MPModel.m_pk (MPModel.get_tree (MPModel.db_rows (mp_now st)) None None) = [7; 4; 6; 11; 13; 12; 1; 3; 5; 2; 9; 14; 15]) /\
  careful_run true so (mp_after so) (start so_F) sprog /\ all_along _ (mp_step PropsMP.s10) (mp_roomy PropsMP.s10) (mkMPS PropsMP.so_db []) sprog /\
  exists st, play (mp_step PropsMP.s10) (mkMPS PropsMP.so_db []) sprog = Ok st /\
    map MPModel.m_pk (MPModel.get_tree (MPModel.db_rows (mp_now st)) None None) = [2; 12; 6; 1; 4; 5; 3].
Proof.
  split; [careful|]. split.
  { vm_compute. repeat split; intros r H; repeat (destruct H as [<-|H]; [apply PropsMP.lt_b; reflexivity|]); destruct H. }
  split; [eexists; eexists; split; [vm_compute; reflexivity|split; [vm_compute; reflexivity|split; vm_compute; reflexivity]]|]. split; [careful|].
  split. { vm_compute. repeat split; intros r H; repeat (destruct H as [<-|H]; [apply PropsMP.lt_b; reflexivity|]); destruct H. }
  eexists; split; [vm_compute; reflexivity|vm_compute; reflexivity].
Qed.

(** Nested sets: the objects of a chain of first children remember each other. *)
Definition nprog : list cmd :=
  [Fetch 3; NewChild 0 (nd 11 1); Fetch 7; NewSib 1 (Some "last-sibling") (nd 12 2); Fetch 4; Fetch 7; MoveTo 4 5 (Some "right"); MoveTo 5 4 (Some "first-child");
   NewChild 0 (nd 13 3); Remove 1].
Example C53_ns_example :
  careful_run true [] ns_after (start ex_F) nprog /\
  (exists st s, play (ns_step []) (mkNSS PropsNS.ex_db []) nprog = Ok st /\ play (sp_step [] ns_after) (start ex_F) nprog = Ok s /\
    map nid (preorder (s_tree s)) = [4; 7; 6; 1; 3; 12; 13; 5; 2; 9; 10] /\
    map NSModel.n_pk (NSModel.get_tree (NSModel.ns_rows (ns_now st)) None None) = [4; 7; 6; 1; 3; 12; 13; 5; 2; 9; 10]) /\
  careful_run true so ns_after (start so_F) sprog /\
  exists st, play (ns_step so) (mkNSS PropsNS.so_db []) sprog = Ok st /\
    map NSModel.n_pk (NSModel.get_tree (NSModel.ns_rows (ns_now st)) None None) = [2; 12; 6; 1; 4; 5; 3].
Proof.
  split; [careful|]. split; [eexists; eexists; split; [vm_compute; reflexivity|split; [vm_compute; reflexivity|split; vm_compute; reflexivity]]|]. split; [careful|].
  eexists; split; [vm_compute; reflexivity|vm_compute; reflexivity].
Qed.

Definition al_pks (o : ordering) (t : ALModel.al_table) : res (list nat) :=
  do l <- ALModel.get_tree o t None None; Ok (map (fun x => ALModel.a_pk (ALModel.o_row x)) l).
(** Adjacency list: objects stay in order while nodes are added and others deleted. *)
Definition aprog : list cmd :=
  [Fetch 4; Fetch 7; NewChild 0 (nd 11 1); NewChild 2 (nd 12 2); NewRoot (nd 13 3); Fetch 3; Remove 5; MoveTo 0 1 (Some "right");
   NewSib 0 (Some "left") (nd 14 4); NewChild 3 (nd 15 5)].
Example C53_al_example :
  careful_run true [] (al_after []) (start ex_F) aprog /\
  (exists st s, play (al_step []) (mkALS PropsAL.ex_t []) aprog = Ok st /\ play (sp_step [] (al_after [])) (start ex_F) aprog = Ok s /\
    map nid (preorder (s_tree s)) = [7; 14; 4; 6; 11; 12; 15; 1; 5; 2; 9; 10; 13] /\
    al_pks [] (al_now st) = Ok [7; 14; 4; 6; 11; 12; 15; 1; 5; 2; 9; 10; 13]) /\
  careful_run true so (al_after so) (start so_F) sprog /\
  exists st, play (al_step so) (mkALS PropsAL.so_t []) sprog = Ok st /\ al_pks so (al_now st) = Ok [2; 12; 6; 1; 4; 5; 3].
Proof.
  split; [careful|]. split; [eexists; eexists; split; [vm_compute; reflexivity|split; [vm_compute; reflexivity|split; vm_compute; reflexivity]]|]. split; [careful|].
  eexists; split; [vm_compute; reflexivity|vm_compute; reflexivity].
Qed.

Definition lprog : list cmd :=
  [Fetch 4; Fetch 7; NewChild 0 (nd 11 1); NewChild 2 (nd 12 2); NewRoot (nd 13 3); Fetch 3; Remove 5; MoveTo 0 1 (Some "right");
   NewSib 0 (Some "right") (nd 14 4); NewChild 6 (nd 15 5)].
Example C53_lt_example :
  careful_run false [] (lt_after []) (start ex_F) lprog /\ all_along _ (lt_step PropsLT.c0) (lt_calm PropsLT.c0) (mkLTS PropsLT.ex_db []) lprog /\
  (exists st s, play (lt_step PropsLT.c0) (mkLTS PropsLT.ex_db []) lprog = Ok st /\ play (sp_step [] (lt_after [])) (start ex_F) lprog = Ok s /\
    map nid (preorder (s_tree s)) = [7; 4; 6; 11; 12; 14; 15; 1; 5; 2; 9; 10; 13] /\
    PropsLT.pks (lt_now st) = [7; 4; 6; 11; 12; 14; 15; 1; 5; 2; 9; 10; 13]) /\
  careful_run false so (lt_after so) (start so_F) sprog /\
  exists st, play (lt_step PropsLT.cs) (mkLTS PropsLT.so_db []) sprog = Ok st /\ PropsLT.pks (lt_now st) = [2; 12; 6; 1; 4; 5; 3].
Proof.
  split; [careful|]. split.
  { cbn [lprog all_along]. repeat (split; [apply LTCalm.calm_callb_ok; vm_compute; reflexivity|]).
    repeat (match goal with |- context[lt_step ?c ?s ?k] => let v := eval vm_compute in (lt_step c s k) in change (lt_step c s k) with v; cbv iota end;
            try (split; [first [exact Logic.I | apply LTCalm.calm_callb_ok; vm_compute; reflexivity]|])); auto. }
  split; [eexists; eexists; split; [vm_compute; reflexivity|split; [vm_compute; reflexivity|split; vm_compute; reflexivity]]|]. split; [careful|].
  eexists; split; [vm_compute; reflexivity|vm_compute; reflexivity].
Qed.

(** ** The documented promise does not hold

    Programs that use only objects which by the documentation are up to date ([doc_after]), and yet
    end in another state than the specification. *)

(** Materialized path: add_sibling does not refresh its target.  12 is put right of the place where
    4 was, before 4. *)
Theorem C53_mp_target_refuted : exists db F cs st s, MPInv.stores PropsMP.c10 (MPModel.db_rows db) F /\
  careful_run false [] doc_after (start F) cs /\
  play (mp_step PropsMP.c10) (mkMPS db []) cs = Ok st /\ play (sp_step [] doc_after) (start F) cs = Ok s /\
  ~ MPInv.stores PropsMP.c10 (MPModel.db_rows (mp_now st)) (s_tree s).
Proof.
  exists PropsMP.ex_db, ex_F, [Fetch 4; NewSib 0 (Some "left") (nd 11 1); NewSib 0 (Some "right") (nd 12 2)].
  eexists; eexists. split; [apply PropsMP.ex_stores|]. split; [careful|].
  split; [vm_compute; reflexivity|]. split; [vm_compute; reflexivity|]. intros S.
  assert (H := PropsMP.C07_tree PropsMP.c10 ltac:(cbn; lia) ltac:(cbn; lia) _ _ None S). vm_compute in H. discriminate.
Qed.

(** ... so that a move moves another node: the object is that of 4, but 11 becomes a root and 4
    stays where it was. *)
Theorem C53_mp_wrong_node_refuted : exists db F cs st s c st' s', MPInv.stores PropsMP.c10 (MPModel.db_rows db) F /\
  careful_run false [] doc_after (start F) (cs ++ [c]) /\
  play (mp_step PropsMP.c10) (mkMPS db []) cs = Ok st /\ play (sp_step [] doc_after) (start F) cs = Ok s /\
  MPInv.stores PropsMP.c10 (MPModel.db_rows (mp_now st)) (s_tree s) /\
  c = MoveTo 0 2 (Some "last-sibling") /\ map MPModel.m_pk (mp_objs st) = [4; 11; 7] /\
  mp_step PropsMP.c10 st c = Ok st' /\ sp_step [] doc_after s c = Ok s' /\
  parent_of 4 (s_tree s) = Some (Some 2) /\ parent_of 4 (s_tree s') = Some None /\
  find (fun r => MPModel.m_pk r =? 4) (MPModel.db_rows (mp_now st')) = find (fun r => MPModel.m_pk r =? 4) (MPModel.db_rows (mp_now st)) /\
  map MPModel.m_pk (MPModel.get_root_nodes (MPModel.db_rows (mp_now st'))) = [7; 1; 2; 11].
Proof.
  assert (C : careful_run true [] (mp_after []) (start ex_F) [Fetch 4; NewSib 0 (Some "left") (nd 11 1); Fetch 7]) by careful.
  assert (H := C53_mp_partial PropsMP.c10 PropsMP.ex_db ex_F _ ltac:(cbn; lia) ltac:(cbn; lia) PropsMP.ex_stores (fun X => match X eq_refl with end) C).
  exists PropsMP.ex_db, ex_F, [Fetch 4; NewSib 0 (Some "left") (nd 11 1); Fetch 7].
  eexists; eexists. exists (MoveTo 0 2 (Some "last-sibling")). eexists; eexists. split; [apply PropsMP.ex_stores|]. split; [careful|].
  split; [vm_compute; reflexivity|]. split; [vm_compute; reflexivity|].
  split. { specialize (H ltac:(vm_compute; auto)). vm_compute in H. vm_compute. destruct H as (s & E & St & _). injection E as <-. exact St. }
  split; [reflexivity|]. split; [vm_compute; reflexivity|]. split; [vm_compute; reflexivity|]. split; [vm_compute; reflexivity|].
  split; [vm_compute; reflexivity|]. split; [vm_compute; reflexivity|]. split; vm_compute; reflexivity.
Qed.

(** Nested sets: the parent object that a new node remembers is not refreshed when the node gets
    a child; a last sibling is then put by its outdated right edge, inside its nephew. *)
Theorem C53_ns_parent_refuted : exists db F cs st s, NSInv.stores (NSModel.ns_rows db) F /\
  careful_run false [] doc_after (start F) cs /\
  play (ns_step []) (mkNSS db []) cs = Ok st /\ play (sp_step [] doc_after) (start F) cs = Ok s /\
  ~ exists G, NSInv.stores (NSModel.ns_rows (ns_now st)) G.
Proof.
  exists PropsNS.ex_db, ex_F, [Fetch 3; NewChild 0 (nd 11 1); NewChild 1 (nd 12 2); NewSib 1 (Some "last-sibling") (nd 13 3)].
  eexists; eexists. split; [apply PropsNS.ex_stores|]. split; [careful|].
  split; [vm_compute; reflexivity|]. split; [vm_compute; reflexivity|]. intros [G S].
  destruct (PropsNS.C21_no_false_alarm _ _ S) as [H _]. vm_compute in H. discriminate.
Qed.

(** ... and the right edge of the target of add_child is not refreshed if it has children: a move
    of it then takes too much. *)
Theorem C53_ns_edge_refuted : exists db F cs st s, NSInv.stores (NSModel.ns_rows db) F /\
  careful_run false [] doc_after (start F) cs /\
  play (ns_step []) (mkNSS db []) cs = Ok st /\ play (sp_step [] doc_after) (start F) cs = Ok s /\
  ~ exists G, NSInv.stores (NSModel.ns_rows (ns_now st)) G.
Proof.
  exists PropsNS.ex_db, ex_F, [Fetch 4; NewChild 0 (nd 11 1); Fetch 3; MoveTo 0 2 (Some "left")].
  eexists; eexists. split; [apply PropsNS.ex_stores|]. split; [careful|].
  split; [vm_compute; reflexivity|]. split; [vm_compute; reflexivity|]. intros [G S].
  destruct (PropsNS.C20_descendants _ _ (NSModel.mkNS 1 2 1 14 1 [Some 10%Z]) None S) as (k & _ & _ & _ & D & Ct & _); [vm_compute; auto 20|].
  apply (f_equal (@length _)) in D. rewrite size_preorder in D. rewrite <- D in Ct. vm_compute in Ct. discriminate.
Qed.

(** Adjacency list: add_sibling does not refresh its target; "right" counts from the place where
    it was. *)
Theorem C53_al_target_refuted : exists t F cs st s, ALInv.stores [] t F /\
  careful_run false [] doc_after (start F) cs /\
  play (al_step []) (mkALS t []) cs = Ok st /\ play (sp_step [] doc_after) (start F) cs = Ok s /\
  ~ ALInv.stores [] (al_now st) (s_tree s).
Proof.
  exists PropsAL.ex_t, ex_F, [Fetch 4; NewSib 0 (Some "left") (nd 11 1); NewSib 0 (Some "right") (nd 12 2)].
  eexists; eexists. split; [apply PropsAL.ex_stores|]. split; [careful|].
  split; [vm_compute; reflexivity|]. split; [vm_compute; reflexivity|]. intros S.
  destruct (ALAnswers.an_tree _ _ _ (PropsAL.C27_reads _ _ _ S (or_introl eq_refl)) None) as (L & E & H & _).
  vm_compute in E. injection E as <-. vm_compute in H. discriminate.
Qed.

(** Ltree: add_sibling does not refresh its target; a child added to it has no parent. *)
Theorem C53_lt_orphan_refuted : exists db F cs st s, LTInv.stores PropsLT.c0 (LTModel.lt_rows db) F /\
  careful_run false [] doc_after (start F) cs /\
  play (lt_step PropsLT.c0) (mkLTS db []) cs = Ok st /\ play (sp_step [] doc_after) (start F) cs = Ok s /\
  ~ exists G, LTInv.stores PropsLT.c0 (LTModel.lt_rows (lt_now st)) G.
Proof.
  exists PropsLT.ex_db, ex_F,
    [Fetch 4; NewSib 0 (Some "first-sibling") (nd 11 1); NewSib 0 (Some "first-sibling") (nd 12 2); NewChild 0 (nd 13 3)].
  eexists; eexists. split; [apply PropsLT.ex_stores|]. split; [careful|].
  split; [vm_compute; reflexivity|]. split; [vm_compute; reflexivity|]. intros [G S].
  cbn [lt_now LTModel.lt_rows] in S. 
  destruct (PropsLT.C32_parent _ _ _ (LTModel.mkLT 13 [[11];[10];[10]] [Some 3%Z]) S) as (q & E & _); [vm_compute; auto 20|].
  vm_compute in E. discriminate.
Qed.

Print Assumptions C53_mp_partial.
Print Assumptions C53_ns_partial.
Print Assumptions C53_al_partial.
Print Assumptions C53_lt_partial.
Print Assumptions C53_lt_order_partial.
Print Assumptions C53_mp_target_refuted.
Print Assumptions C53_mp_wrong_node_refuted.
Print Assumptions C53_ns_parent_refuted.
Print Assumptions C53_ns_edge_refuted.
Print Assumptions C53_al_target_refuted.
Print Assumptions C53_lt_orphan_refuted.
