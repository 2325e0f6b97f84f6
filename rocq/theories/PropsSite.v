(** C54: a site that works on a tree for a long time. *)
From Coq Require Import String List Arith Lia Bool ZArith.
From Verif Require Import Prelude Forest SpecFacts SpecSane SpecKids SpecPerm CommonModel Order History Fixture
  FormModel AdminModel BulkModel BulkLoad SiteModel Site.
From Verif Require MPModel MPInv MPMoveOk PropsMP SiteMP.
From Verif Require NSModel NSInv PropsNS SiteNS.
From Verif Require ALModel ALInv PropsAL SiteAL.
From Verif Require LTModel LTInv PropsLT SiteLT PropsForm PropsFormSorted.
Import ListNotations.
Local Open Scope string_scope.
Local Open Scope list_scope.
Local Open Scope nat_scope.

(** ** Any number of requests of all kinds

    Beginning with a table that stores a tree, requests that meet the conditions of [xx_ok] (all
    of them about the request and the table it is sent to, see Site*.v) leave a table that stores
    a tree, and it is the one that the specification [life] describes: each request was served as
    it should be, declined for a reason of the specification, or raised the exception of the
    specification, or - the kinds of tree that can run out of room - was given up and
    changed nothing. *)
Theorem C54_mp_partial cfg db F rs : 2 <= MPModel.radix cfg -> 1 <= MPModel.steplen cfg ->
  let o := MPModel.order_by cfg in (o <> [] -> MPMoveOk.py_agrees cfg) ->
  MPInv.stores cfg (MPModel.db_rows db) F -> ordered o F -> all_ok (mp_serve cfg) (SiteMP.mp_ok cfg) db rs ->
  exists G, MPInv.stores cfg (MPModel.db_rows (days (mp_serve cfg) db rs)) G /\ ordered o G /\
    life (mp_serve cfg) (SiteMP.mp_kind cfg) o db F rs G.
Proof.
  intros R1 R2 o Py S O A.
  destruct (days_life _ (mp_serve cfg) (SiteMP.mp_kind cfg) o (fun db F => MPInv.stores cfg (MPModel.db_rows db) F /\ ordered o F)
    (SiteMP.mp_ok cfg) (SiteMP.mp_step cfg R1 R2 Py) rs db F (conj S O) A) as (G & [S' O'] & L). eauto.
Qed.

Theorem C54_ns_partial o db F rs : NSInv.stores (NSModel.ns_rows db) F -> ordered o F ->
  all_ok (ns_serve o) (SiteNS.ns_ok o) db rs ->
  exists G, NSInv.stores (NSModel.ns_rows (days (ns_serve o) db rs)) G /\ ordered o G /\
    life (ns_serve o) SiteNS.ns_kind o db F rs G.
Proof.
  intros S O A.
  destruct (days_life _ (ns_serve o) SiteNS.ns_kind o (fun db F => NSInv.stores (NSModel.ns_rows db) F /\ ordered o F)
    (SiteNS.ns_ok o) (SiteNS.ns_step o) rs db F (conj S O) A) as (G & [S' O'] & L). eauto.
Qed.

Theorem C54_al_partial o t F rs : ALInv.stores o t F -> all_ok (al_serve o) (SiteAL.al_ok o) t rs ->
  exists G, ALInv.stores o (days (al_serve o) t rs) G /\ life (al_serve o) SiteAL.al_kind o t F rs G.
Proof. exact (days_life _ (al_serve o) SiteAL.al_kind o (ALInv.stores o) (SiteAL.al_ok o) (SiteAL.al_step o) rs t F). Qed.

Theorem C54_lt_partial cfg db F rs : 2 <= LTModel.label_max cfg -> let o := LTModel.lt_order cfg in
  LTInv.stores cfg (LTModel.lt_rows db) F -> all_ok (lt_serve cfg) (SiteLT.lt_ok cfg) db rs ->
  exists G, LTInv.stores cfg (LTModel.lt_rows (days (lt_serve cfg) db rs)) G /\
    life (lt_serve cfg) (SiteLT.lt_kind cfg) o db F rs G.
Proof.
  intros M o. exact (days_life _ (lt_serve cfg) (SiteLT.lt_kind cfg) o (fun db => LTInv.stores cfg (LTModel.lt_rows db))
    (SiteLT.lt_ok cfg) (SiteLT.lt_step cfg M) rs db F).
Qed.

(** ** Concrete days *)
Definition d5 : fields := [Some 5%Z].
(** Two trees to load, 21(22) and 23. *)
Definition two : forest item :=
  Cons (mkItem (Some 21) d5) (Cons (mkItem (Some 22) d5) Nil Nil) (Cons (mkItem (Some 23) d5) Nil Nil).
Definition two_g : forest node := Cons (nd 21 5) (Cons (nd 22 5) Nil Nil) (Cons (nd 23 5) Nil Nil).

Lemma describes_two next g : describes true next two g -> g = two_g.
Proof.
  intros [E1 E2]. destruct g as [|a [|b [|? ? ?] [|? ? ?]] [|c [|? ? ?] [|? ? ?]]]; try discriminate.
  cbn in *. injection E1 as A1 A2 A3. injection E2 as B1 B2 B3. destruct a, b, c. cbn in *. subst. reflexivity.
Qed.

Definition id_next (n : nat) : nat := n.

(** From 7; 1(3, 5); 2(4(6), 9(10)): 5 becomes the last child of 4; 1 cannot be dragged into
    its own branch; 9 becomes the first root in its form; a new node 11 below 9; two trees
    loaded below 10; a form with a position that does not exist; 2 is moved left of 22;
    a wrong position; 4 and its branch deleted; a repair. *)
Definition day : list request :=
  [Drag 5 4 true; Drag 1 3 false; Edit 9 d5 None "first-child"; Create (nd 11 1) (Some 9) "first-child";
   LoadBulk true id_next two (Some 10); Create (nd 12 1) None "here"; Call (CMove 2 22 (Some "left"));
   Call (CMove 2 22 (Some "nowhere")); Call (CDelete [4]); Drag 4 9 true; Fix true].

(** The tree at the end: 9(11, 10(21(2, 22), 23)); 7; 1(3). *)
Definition day_ids : list nat := [9; 11; 10; 21; 2; 22; 23; 7; 1; 3].

Ltac fresh_lit := cbn; intros; repeat match goal with H : _ \/ _ |- _ => destruct H | H : False |- _ => destruct H end; subst; try discriminate.

Lemma ok_cons {DB} (serve : DB -> request -> reply DB) (ok : DB -> request -> Prop) db db' r rs :
  after db (serve db r) = db' -> ok db r -> all_ok serve ok db' rs -> all_ok serve ok db (r :: rs).
Proof. intros <-. split; auto. Qed.

Lemma roomy_check cfg k t :
  forallb (fun r => NumConv.undigits (MPModel.radix cfg) (MPModel.last_step cfg (MPModel.m_path r)) + k <? MPModel.radix cfg ^ MPModel.steplen cfg) t = true ->
  PropsForm.roomy_by cfg k t.
Proof. rewrite forallb_forall. intros H r Hr. apply Nat.ltb_lt, H, Hr. Qed.

Ltac lits := repeat match goal with H : _ \/ _ |- _ => destruct H | H : False |- _ => destruct H end; subst; try congruence.
(** The conditions of a request that can be computed. *)
Ltac asked :=
  match goal with
  | |- fresh_req ?l ?r => let l' := eval vm_compute in l in change (fresh_req l' r);
      cbn [fresh_req]; solve [exact Logic.I | intros g D; apply describes_two in D; subst g; split;
        [unfold wf_ids; vm_compute; repeat constructor; intros X; vm_compute in X; lits | intros i Hi X; vm_compute in Hi, X; lits] |
        intros i Hi X; vm_compute in Hi; lits | intros X; vm_compute in X; lits]
  | |- values_req _ _ => intros No; cbn [values_req]; solve [exact Logic.I | exfalso; apply No; reflexivity |
        intros g D; apply describes_two in D; subst g; repeat constructor; intros i b [X|[]]; injection X as <- <-; vm_compute; congruence |
        intros i b [X|[]]; injection X as <- <-; vm_compute; congruence |
        intros a [<-|[]] i b [X|[]]; injection X as <- <-; vm_compute; congruence]
  | |- PropsForm.roomy_by _ _ _ => apply roomy_check; vm_compute; reflexivity
  | |- True => exact Logic.I
  | |- forall F, _ -> resorts _ _ _ _ _ => intros F _; solve [right; intros i b [] |
        left; left; unfold PropsForm.shown; destruct (parent_of _ _) as [[?|]|]; discriminate]
  end.
Ltac by_steps tac :=
  lazymatch goal with
  | |- all_ok ?serve ?ok ?db (?r :: _) =>
      let d := eval vm_compute in (after db (serve db r)) in
      apply (ok_cons serve ok db d r); [vm_compute; reflexivity|tac ()|by_steps tac]
  | |- _ => exact Logic.I
  end.

Example C54_mp_example : all_ok (mp_serve PropsMP.c10) (SiteMP.mp_ok PropsMP.c10) PropsMP.ex_db day /\
  map MPModel.m_pk (MPModel.get_tree (MPModel.db_rows (days (mp_serve PropsMP.c10) PropsMP.ex_db day)) None None) = day_ids.
Proof.
  split; [|vm_compute; reflexivity]. unfold day.
  by_steps ltac:(fun _ => unfold SiteMP.mp_ok; split; [asked|split; [asked|first [asked|split; asked]]]).
Qed.

(** The same day in the other trees; nothing can be repaired there. *)
Example C54_ns_example : all_ok (ns_serve []) (SiteNS.ns_ok []) PropsNS.ex_db day /\
  map NSModel.n_pk (NSModel.get_tree (NSModel.ns_rows (days (ns_serve []) PropsNS.ex_db day)) None None) = day_ids.
Proof.
  split; [|vm_compute; reflexivity]. unfold day.
  by_steps ltac:(fun _ => unfold SiteNS.ns_ok; split; [asked|split; [asked|first [asked|intros F P _ E; injection E as <-; left; reflexivity]]]).
Qed.

Example C54_al_example : all_ok (al_serve []) (SiteAL.al_ok []) PropsAL.ex_t day /\
  let t := days (al_serve []) PropsAL.ex_t day in
  map (fun r => (ALModel.a_pk r, ALModel.a_parent r, ALModel.a_sib r)) t =
    [(23, Some 10, 2%Z); (22, Some 21, 2%Z); (21, Some 10, 1%Z); (11, Some 9, 1%Z); (10, Some 9, 2%Z); (9, None, 1%Z);
     (7, None, 2%Z); (3, Some 1, 1%Z); (2, Some 21, 1%Z); (1, None, 3%Z)].
Proof.
  split; [|vm_compute; reflexivity]. unfold day.
  by_steps ltac:(fun _ => unfold SiteAL.al_ok; split; [asked|split; [asked|first [asked|discriminate]]]).
Qed.

Example C54_lt_example : all_ok (lt_serve PropsLT.c0) (SiteLT.lt_ok PropsLT.c0) PropsLT.ex_db day /\
  map LTModel.l_pk (LTModel.get_tree (LTModel.lt_rows (days (lt_serve PropsLT.c0) PropsLT.ex_db day)) None None) = day_ids.
Proof.
  split; [|vm_compute; reflexivity]. unfold day.
  by_steps ltac:(fun _ => unfold SiteLT.lt_ok; split; asked).
Qed.

(** A sorted tree, 2, 6(1(4, 5), 3), greatest value first: 3 dragged below 2; a new node where it belongs; two
    trees loaded; a form with a position of unsorted trees; a move; 5 gets the value 30 and becomes a root. *)
Definition so_day : list request :=
  [Drag 3 2 true; Create (nd 11 12) (Some 1) "sorted-child"; LoadBulk true id_next two (Some 6); Create (nd 12 8) (Some 1) "left";
   Call (CMove 22 4 None); Call (CMove 22 4 (Some "left")); Edit 5 [Some 30%Z] None "sorted-sibling"; Fix true].

Example C54_sorted_example : MPMoveOk.py_agrees PropsMP.s10 /\ all_ok (mp_serve PropsMP.s10) (SiteMP.mp_ok PropsMP.s10) PropsMP.so_db so_day /\
  map MPModel.m_pk (MPModel.get_tree (MPModel.db_rows (days (mp_serve PropsMP.s10) PropsMP.so_db so_day)) None None) =
    [5; 2; 3; 6; 1; 11; 4; 22; 23; 21].
Proof.
  split; [intros p p' H; exact H|]. split; [|vm_compute; reflexivity]; unfold so_day.
  by_steps ltac:(fun _ => unfold SiteMP.mp_ok; split; [asked|split; [asked|first [asked|split; asked]]]).
Qed.

Example C54_sorted_examples :
  (all_ok (ns_serve so) (SiteNS.ns_ok so) PropsNS.so_db so_day /\
   map NSModel.n_pk (NSModel.get_tree (NSModel.ns_rows (days (ns_serve so) PropsNS.so_db so_day)) None None) =
    [5; 2; 3; 6; 1; 11; 4; 22; 21; 23]) /\
  (all_ok (al_serve so) (SiteAL.al_ok so) PropsAL.so_t so_day /\
   map (fun r => (ALModel.a_pk r, ALModel.a_parent r)) (days (al_serve so) PropsAL.so_t so_day) =
    [(23, Some 6); (22, Some 1); (21, Some 6); (11, Some 1); (6, None); (5, None); (4, Some 1); (3, Some 2); (2, None); (1, Some 6)]) /\
  (all_ok (lt_serve PropsLT.cs) (SiteLT.lt_ok PropsLT.cs) PropsLT.so_db so_day /\
   map LTModel.l_pk (LTModel.get_tree (LTModel.lt_rows (days (lt_serve PropsLT.cs) PropsLT.so_db so_day)) None None) =
    [5; 2; 3; 6; 1; 11; 4; 22; 21; 23]).
Proof.
  split; [|split]; (split; [|vm_compute; reflexivity]); unfold so_day.
  - by_steps ltac:(fun _ => unfold SiteNS.ns_ok; split; [asked|split; [asked|first [asked|intros F P _ E; first [discriminate E|injection E as <-; left; reflexivity]]]]).
  - by_steps ltac:(fun _ => unfold SiteAL.al_ok; split; [asked|split; [asked|first [asked|discriminate]]]).
  - by_steps ltac:(fun _ => unfold SiteLT.lt_ok; split; asked).
Qed.

(** 1(2, 3, 4), 5(6), smallest value first: 3 gets the value 45 and nothing else is changed in
    the form. *)
Example C54_ascending_example : let r := Edit 3 [Some 45%Z] (Some 1) "sorted-child" in
  all_ok (mp_serve PropsFormSorted.u10) (SiteMP.mp_ok PropsFormSorted.u10) PropsFormSorted.up_mp [r] /\
  map MPModel.m_pk (MPModel.get_tree (MPModel.db_rows (days (mp_serve PropsFormSorted.u10) PropsFormSorted.up_mp [r])) None None) = [1; 2; 4; 3; 5; 6].
Proof.
  cbv zeta. split; [|vm_compute; reflexivity].
  by_steps ltac:(fun _ => unfold SiteMP.mp_ok; split; [asked|split; [asked|split; [|asked]]]).
  intros F S. left. right. exists 0. split; [left; reflexivity|].
  rewrite (data_of_spec 3 F (MPReads.node_of (PropsMP.row PropsFormSorted.up_mp 3)) (PropsMP.stores_wf _ _ _ S)); [vm_compute; discriminate| |vm_compute; reflexivity].
  apply (PropsFormSorted.mp_node PropsFormSorted.u10 (PropsMP.le_b 2 10 eq_refl) (PropsMP.le_b 1 2 eq_refl) _ _ _ S). vm_compute. auto 8.
Qed.

(** ** What [al_ok] and [ns_ok] leave out

    The change form of an adjacency list accepts the node itself and the nodes below it as the
    reference node, although it does not offer them; the request fails with an exception
    instead of showing the form again. *)
Theorem C54_al_own_branch_refuted : exists t F n k p, ALInv.stores [] t F /\ descends F n k /\
  declined [] F (Edit n d5 (Some k) p) /\ al_serve [] t (Edit n d5 (Some k) p) = Failed InvalidMoveToDescendant /\
  forall G, ~ next_tree SiteAL.al_kind [] t F (Edit n d5 (Some k) p) (al_serve [] t (Edit n d5 (Some k) p)) G.
Proof.
  assert (E : al_serve [] PropsAL.ex_t (Edit 4 d5 (Some 6) "first-child") = Failed InvalidMoveToDescendant) by (vm_compute; reflexivity).
  exists PropsAL.ex_t, ex_F, 4, 6, "first-child". split; [exact PropsAL.ex_stores|]. split; [|split; [|split; [exact E|]]].
  - exists (Cons (nd 6 60) Nil Nil). split; [reflexivity|left; reflexivity].
  - right. right. intros A. specialize (A 6 eq_refl). vm_compute in A. lits.
  - intros G. rewrite E. intros [_ [[]|[[] _]]].
Qed.

(** The form of a new node of a nested sets tree fails for some of the reference nodes it offers. *)
Theorem C54_ns_create_refuted : exists db F x k p, NSInv.stores (NSModel.ns_rows db) F /\
  SiteNS.ns_ok [] db (Create x None p) /\ ~ declined [] F (Create x (Some k) p) /\
  ns_serve [] db (Create x (Some k) p) = Failed IndexError /\
  forall G, ~ next_tree SiteNS.ns_kind [] db F (Create x (Some k) p) (ns_serve [] db (Create x (Some k) p)) G.
Proof.
  assert (E : ns_serve [] PropsNS.ex_db (Create (nd 11 1) (Some 9) "left") = Failed IndexError) by (vm_compute; reflexivity).
  exists PropsNS.ex_db, ex_F, (nd 11 1), 9, "left". split; [exact PropsNS.ex_stores|]. split; [|split; [|split; [exact E|]]].
  - unfold SiteNS.ns_ok. split; [asked|split; asked].
  - intros [H|H]; apply H; [cbn; auto|]. intros k X. injection X as <-. vm_compute. tauto.
  - intros G. rewrite E. intros [_ [[]|[[] _]]].
Qed.

Print Assumptions C54_mp_partial.
Print Assumptions C54_ns_partial.
Print Assumptions C54_al_partial.
Print Assumptions C54_lt_partial.
Print Assumptions C54_al_own_branch_refuted.
Print Assumptions C54_ns_create_refuted.
