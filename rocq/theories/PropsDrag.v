(** Theorems about dragging rows in the admin list (C61). *)
From Coq Require Import String List Arith Lia Bool ZArith Permutation.
From Verif Require Import Prelude Forest SpecFacts SpecSane CommonModel Order History Fixture AdminModel SiteModel PropsAdmin DragModel.
From Verif Require MPModel MPStep MPInv MPAdd MPMoveOk MPReads MPHist MPRoom PropsMP.
From Verif Require NSModel NSInv NSReads PropsNS.
From Verif Require ALModel ALInv ALReads PropsAL.
From Verif Require LTModel LTInv LTReads LTAdd LTMove PropsLT SpecPerm.
Import ListNotations.
Local Open Scope nat_scope.

(** ** What the events say *)
Definition starts (e : event) : bool := match e with Start _ => true | _ => false end.
Definition turns (e : event) : bool := match e with Enter _ | End => true | _ => false end.
Definition tells (e : event) : bool := match e with Drag _ _ => true | _ => false end.
Definition none (p : event -> bool) (es : list event) : Prop := forall e, In e es -> p e = false.
Definition pointer (es : list event) : Z := fold_left (fun y e => match e with Over y => y | _ => y end) es 0%Z.

(** The row of [n] is dragged, the pointer came to the row of [t] and has not left it, and at the
    last drag event, when the pointer was at [y], this row began at [top]. *)
Definition gesture (es : list event) (n : option nat) (t : nat) (y top height : Z) : Prop :=
  exists a b c d, es = a ++ Start n :: b ++ Enter t :: c ++ Drag top height :: d /\
    none starts b /\ none starts c /\ none starts d /\ none turns c /\ none turns d /\ none tells d /\
    y = pointer (a ++ Start n :: b ++ Enter t :: c).

(** The text that should be there. *)
Definition announced (n : option nat) (t : nat) (y top height : Z) (x : text) : Prop :=
  match x with
  | Abort => n = Some t
  | AsSibling => n <> Some t /\ (top <= y)%Z /\ (2 * (y - top) <= height)%Z
  | AsChild => n <> Some t /\ ((y < top)%Z \/ (2 * (y - top) > height)%Z)
  end.

(** ** The handlers *)
Lemma handled_app v a b : handled v (a ++ b) = handled (handled v a) b.
Proof. revert v. induction a as [|e a IH]; intros v; simpl; auto. Qed.

Lemma handled_dragged es : forall v, none starts es -> v_dragged (handled v es) = v_dragged v.
Proof.
  induction es as [|e es IH]; intros v N; auto. cbn [handled]. rewrite IH by (intros x Hx; apply N; right; auto).
  assert (E := N e (or_introl eq_refl)). destruct e; try discriminate; cbn [handle fst v_dragged]; auto.
  - destruct (v_target v); auto. destruct (v_dragged v) eqn:Ed; auto. destruct (same_node _ _); auto. destruct (upper_half _ _ _); auto.
  - destruct (v_target v); auto. destruct (v_dragged v) eqn:Ed; auto. destruct (same_node _ _); auto.
  - destruct (v_dragged v) eqn:Ed; auto.
Qed.

Lemma handled_target es : forall v, none turns es -> v_target (handled v es) = v_target v.
Proof.
  induction es as [|e es IH]; intros v N; auto. cbn [handled]. rewrite IH by (intros x Hx; apply N; right; auto).
  assert (E := N e (or_introl eq_refl)). destruct e; try discriminate; cbn [handle fst v_target]; auto.
  - destruct (v_target v) eqn:Et; auto. destruct (v_dragged v) eqn:Ed; auto. destruct (same_node _ _); auto. destruct (upper_half _ _ _); auto.
  - destruct (v_target v) eqn:Et; auto. destruct (v_dragged v) eqn:Ed; auto. destruct (same_node _ _); auto.
Qed.

Lemma handled_child es : forall v, none tells es -> v_child (handled v es) = v_child v /\ v_text (handled v es) = v_text v.
Proof.
  induction es as [|e es IH]; intros v N; auto. cbn [handled].
  assert (E := N e (or_introl eq_refl)). destruct (IH (fst (handle v e))) as [-> ->]; [intros x Hx; apply N; right; auto|].
  destruct e; try discriminate; cbn [handle fst v_child v_text]; auto.
  - destruct (v_target v) eqn:Et; auto. destruct (v_dragged v) eqn:Ed; auto. destruct (same_node _ _); auto.
  - destruct (v_dragged v) eqn:Ed; auto.
Qed.

Lemma handled_pointer es : forall v, v_y (handled v es) = fold_left (fun y e => match e with Over y => y | _ => y end) es (v_y v).
Proof.
  induction es as [|e es IH]; intros v; auto. cbn [handled fold_left]. rewrite IH. f_equal.
  destruct e; cbn [handle fst v_y]; auto.
  - destruct (v_target v) eqn:Et; auto. destruct (v_dragged v) eqn:Ed; auto. destruct (same_node _ _); auto. destruct (upper_half _ _ _); auto.
  - destruct (v_target v) eqn:Et; auto. destruct (v_dragged v) eqn:Ed; auto. destruct (same_node _ _); auto.
  - destruct (v_dragged v) eqn:Ed; auto.
Qed.

Lemma none_app p a b : none p (a ++ b) <-> none p a /\ none p b.
Proof.
  unfold none. split.
  - intros H. split; intros e He; apply H; apply in_app_iff; auto.
  - intros [H1 H2] e He. apply in_app_iff in He. destruct He; auto.
Qed.

Lemma same_spec t n : same_node t n = true <-> n = Some t.
Proof. destruct n as [n|]; cbn [same_node]; [rewrite Nat.eqb_eq; split; congruence|split; discriminate]. Qed.

(** After such a gesture the text announces what dropping does: nothing, or the request to
    make the dragged node a sibling or a child of the row. *)
Theorem C61_announced es n t y top height : gesture es n t y top height ->
  exists x, v_text (handled vars0 es) = Some x /\ announced n t y top height x /\
    snd (handle (handled vars0 es) Drop) = match x with Abort => Nothing | AsSibling => Post n t false | AsChild => Post n t true end.
Proof.
  intros (a & b & c & d & E & Sb & Sc & Sd & Tc & Td & Ld & Ey).
  set (u := handled vars0 (a ++ Start n :: b ++ Enter t :: c)).
  assert (Ev : handled vars0 es = handled (fst (handle u (Drag top height))) d).
  { rewrite E. unfold u. replace (a ++ Start n :: b ++ Enter t :: c ++ Drag top height :: d) with ((a ++ Start n :: b ++ Enter t :: c) ++ Drag top height :: d).
    - rewrite (handled_app vars0 (a ++ Start n :: b ++ Enter t :: c)). auto.
    - rewrite <- !app_assoc. cbn [app]. rewrite <- !app_assoc. auto. }
  assert (Du : v_dragged u = Some n).
  { unfold u. rewrite handled_app. cbn [handled]. rewrite handled_dragged; auto.
    apply none_app. split; auto. intros e [<-|He]; auto. }
  assert (Tu : v_target u = Some t).
  { unfold u. rewrite handled_app. cbn [handled]. rewrite handled_app. cbn [handled]. rewrite handled_target; auto. }
  assert (Yu : v_y u = y) by (unfold u; rewrite handled_pointer, Ey; auto).
  assert (D1 := handled_dragged d (fst (handle u (Drag top height))) Sd). assert (T1 := handled_target d (fst (handle u (Drag top height))) Td).
  destruct (handled_child d (fst (handle u (Drag top height))) Ld) as (C1 & X1). rewrite <- Ev in *.
  set (w := handled vars0 es) in *. clearbody w. clear Ev.
  cbn [handle] in *. rewrite Du, Tu in *.
  destruct (same_node t n) eqn:Es; [|destruct (upper_half (v_y u) top height) eqn:Eu]; cbn [fst v_text v_target v_child v_dragged] in *;
    rewrite D1, T1, X1, C1, ?Es.
  - exists Abort. apply same_spec in Es. auto.
  - exists AsSibling. split; auto. split; auto. rewrite Yu in Eu. apply andb_true_iff in Eu. destruct Eu as [H1 H2]. cbn [announced].
    split; [intros H; apply same_spec in H; congruence|]. lia.
  - exists AsChild. split; auto. split; auto. rewrite Yu in Eu. cbn [announced].
    split; [intros H; apply same_spec in H; congruence|]. apply andb_false_iff in Eu. destruct Eu; lia.
Qed.

(** Whatever the events were: a request is about the row of the last dragstart and the row of the
    last dragenter since the last dragend, and these are two nodes. *)
Theorem C61_posts es n t child : snd (handle (handled vars0 es) Drop) = Post n t child ->
  n <> Some t /\ (exists a b, es = a ++ Start n :: b /\ none starts b) /\ (exists a b, es = a ++ Enter t :: b /\ none turns b).
Proof.
  cbn [handle]. destruct (v_target (handled vars0 es)) as [t'|] eqn:Et; [|discriminate].
  destruct (v_dragged (handled vars0 es)) as [n'|] eqn:En; [|discriminate]. destruct (same_node t' n') eqn:Es; [discriminate|].
  intros E. cbn [snd] in E. injection E as -> -> _. split; [intros H; apply same_spec in H; congruence|]. clear Es. split.
  - clear Et. revert En. induction es as [|e es IH] using rev_ind; [discriminate|]. rewrite handled_app. cbn [handled]. intros En.
    destruct (starts e) eqn:Ee.
    + destruct e; try discriminate. injection En as ->. exists es, []. split; auto. intros x [].
    + assert (En' : v_dragged (handled (handled vars0 es) [e]) = Some n) by exact En.
      rewrite handled_dragged in En' by (intros x [<-|[]]; auto).
      destruct (IH En') as (a & b & -> & H). exists a, (b ++ [e]). rewrite <- app_assoc. split; auto. apply none_app. split; auto.
      intros x [<-|[]]; auto.
  - clear En. revert Et. induction es as [|e es IH] using rev_ind; [discriminate|]. rewrite handled_app. cbn [handled]. intros Et.
    destruct (turns e) eqn:Ee.
    + destruct e; try discriminate.
      * injection Et as ->. exists es, []. split; auto. intros x [].
      * cbn [handle] in Et. destruct (v_dragged (handled vars0 es)); discriminate.
    + assert (Et' : v_target (handled (handled vars0 es) [e]) = Some t) by exact Et.
      rewrite handled_target in Et' by (intros x [<-|[]]; auto).
      destruct (IH Et') as (a & b & -> & H). exists a, (b ++ [e]). rewrite <- app_assoc. split; auto. apply none_app. split; auto.
      intros x [<-|[]]; auto.
Qed.

(** ** Together with the server: what was announced is what happens to the tree *)
Lemma posted_drop {DB} (serve : DB -> request -> reply DB) db es n t y top height (below : bool) :
  gesture es (Some n) t y top height -> v_text (handled vars0 es) = Some (if below then AsChild else AsSibling) ->
  posted serve db (snd (handle (handled vars0 es) Drop)) = serve db (SiteModel.Drag n t below).
Proof.
  intros G E. destruct (C61_announced _ _ _ _ _ _ G) as (x & Ex & _ & ->). rewrite Ex in E. injection E as ->. destruct below; auto.
Qed.

(** "Abort": the tree stays as it is. *)
Theorem C61_abort {DB} (serve : DB -> request -> reply DB) db es n t y top height : gesture es n t y top height ->
  (v_text (handled vars0 es) = Some Abort <-> n = Some t) /\
  (n = Some t -> posted serve db (snd (handle (handled vars0 es) Drop)) = Done db).
Proof.
  intros G. destruct (C61_announced _ _ _ _ _ _ G) as (x & Ex & An & ->). rewrite Ex. destruct x; cbn [announced posted] in *.
  - split; auto. split; auto.
  - split; [split; [discriminate|tauto]|tauto].
  - split; [split; [discriminate|tauto]|tauto].
Qed.

Section MP.
Import MPModel MPStep MPInv MPAdd MPReads MPHist MPMoveOk MPRoom PropsMP.
Theorem C61_mp cfg db F es n t y top height (below : bool) : 2 <= radix cfg -> 1 <= steplen cfg ->
  stores cfg (db_rows db) F -> ordered (order_by cfg) F -> In n (db_rows db) -> In t (db_rows db) ->
  temp_room cfg (db_rows db) (if below then m_path t else get_parent_path cfg (m_path t)) (m_path n) ->
  gesture es (Some (m_pk n)) (m_pk t) y top height -> v_text (handled vars0 es) = Some (if below then AsChild else AsSibling) ->
  let answer := posted (mp_serve cfg) db (snd (handle (handled vars0 es) Drop)) in
  (own_branch F (m_pk n) (m_pk t) below /\ answer = Refused) \/
  (~ own_branch F (m_pk n) (m_pk t) below /\
   ((exists db' G, answer = Done db' /\ stores cfg (db_rows db') G /\
       dragged (is_sorted cfg) F G (m_pk n) (m_pk t) below (gt_of (order_by cfg) (m_data n))) \/
    (answer = Refused /\ step_taken cfg (db_rows db) (if below then m_path t else get_parent_path cfg (m_path t))))).
Proof.
  intros R1 R2 S O Hn Ht Rm Ge Ex answer. unfold answer. rewrite (posted_drop _ db es (m_pk n) (m_pk t) y top height below Ge Ex).
  cbn [mp_serve]. destruct (mp_resave cfg R1 R2 db F n S Hn) as (-> & _). destruct (mp_resave cfg R1 R2 db F t S Ht) as (-> & _).
  apply C45_mp_drag; auto.
Qed.
End MP.

Section NS.
Import NSModel NSInv NSReads PropsNS.
Theorem C61_ns o db F es n t y top height (below : bool) : stores (ns_rows db) F -> In n (ns_rows db) -> In t (ns_rows db) ->
  gesture es (Some (n_pk n)) (n_pk t) y top height -> v_text (handled vars0 es) = Some (if below then AsChild else AsSibling) ->
  let answer := posted (ns_serve o) db (snd (handle (handled vars0 es) Drop)) in
  (own_branch F (n_pk n) (n_pk t) below /\ answer = Refused) \/
  (~ own_branch F (n_pk n) (n_pk t) below /\
   exists db' G, answer = Done db' /\ stores (ns_rows db') G /\
     dragged (is_sorted o) F G (n_pk n) (n_pk t) below (gt_of o (n_data n))).
Proof.
  intros S Hn Ht Ge Ex answer. unfold answer. rewrite (posted_drop _ db es (n_pk n) (n_pk t) y top height below Ge Ex).
  cbn [ns_serve]. assert (S2 := S). destruct S2 as (W & ts & I & P). rewrite (get_by_pk_in _ _ _ W I P n Hn), (get_by_pk_in _ _ _ W I P t Ht).
  apply C45_ns_drag; auto.
Qed.
End NS.

Section AL.
Import ALModel ALInv ALReads PropsAL.
Theorem C61_al o t F es n target y top height (below : bool) : stores o t F -> In n t -> In target t ->
  gesture es (Some (a_pk n)) (a_pk target) y top height -> v_text (handled vars0 es) = Some (if below then AsChild else AsSibling) ->
  let answer := posted (al_serve o) t (snd (handle (handled vars0 es) Drop)) in
  (own_branch F (a_pk n) (a_pk target) below /\ answer = Refused) \/
  (~ own_branch F (a_pk n) (a_pk target) below /\
   exists t' G, answer = Done t' /\ stores o t' G /\
     dragged (is_sorted o) F G (a_pk n) (a_pk target) below (gt_of o (a_data n))).
Proof.
  intros S Hn Ht Ge Ex answer. unfold answer. rewrite (posted_drop _ t es (a_pk n) (a_pk target) y top height below Ge Ex).
  cbn [al_serve]. assert (S2 := S). destruct S2 as (W & _ & so & Fit & _). rewrite (get_in _ _ _ W Fit n Hn), (get_in _ _ _ W Fit target Ht).
  apply C45_al_drag; auto.
Qed.
End AL.

Section LT.
Import LTModel LTInv LTReads LTAdd LTMove PropsLT.
(** With the exceptions of C45_lt_drag_partial. *)
Theorem C61_lt_partial cfg db F es n t y top height (below : bool) : 2 <= label_max cfg ->
  stores cfg (lt_rows db) F -> In n (lt_rows db) -> In t (lt_rows db) ->
  gesture es (Some (l_pk n)) (l_pk t) y top height -> v_text (handled vars0 es) = Some (if below then AsChild else AsSibling) ->
  let answer := posted (lt_serve cfg) db (snd (handle (handled vars0 es) Drop)) in
  (own_branch F (l_pk n) (l_pk t) below /\ answer = Refused) \/
  (~ own_branch F (l_pk n) (l_pk t) below /\
   ((exists db' G S, answer = Done db' /\ stores cfg (lt_rows db') G /\ SpecPerm.same_kids S G /\
       (below = true /\ is_sorted cfg = false \/ calm_pos cfg (lt_rows db) t (drag_place below (is_sorted cfg)) (l_data n) -> G = S) /\
       dragged (is_sorted cfg) F S (l_pk n) (l_pk t) below (gt_of (lt_order cfg) (l_data n))) \/
    (exists e, answer = Failed e /\
       no_label cfg (lt_rows db) (if below then l_path t else parent_path (l_path t)) (@Err unit e)))).
Proof.
  intros M2 S Hn Ht Ge Ex answer. unfold answer. rewrite (posted_drop _ db es (l_pk n) (l_pk t) y top height below Ge Ex).
  cbn [lt_serve]. assert (S2 := S). destruct S2 as (f & L & <- & I). rewrite (get_by_pk_lay cfg _ f n L I Hn), (get_by_pk_lay cfg _ f t L I Ht).
  apply C45_lt_drag_partial; auto.
Qed.
End LT.

(** ** Examples *)
(** Row 9 is dragged over row 2 to the upper half of row 5, and the pointer moves on a little. *)
Definition drag95 : list event :=
  [Over 100; Start (Some 9); Drag 90 20; Enter 2; Over 80; Drag 75 20; Enter 5; Over 62; Drag 60 20; Over 63; Drag 60 20; Over 64].
Definition drag91 : list event := [Start (Some 9); Over 200; Enter 1; Drag 60 20].
Lemma drag95_ok : gesture drag95 (Some 9) 5 63 60 20.
Proof.
  exists [Over 100], [Drag 90 20; Enter 2; Over 80; Drag 75 20], [Over 62; Drag 60 20; Over 63], [Over 64].
  unfold none. cbn [In]. repeat split; try reflexivity; intros e H; decompose [or] H; subst; try reflexivity; tauto.
Qed.
Lemma drag91_ok : gesture drag91 (Some 9) 1 200 60 20.
Proof.
  exists [], [Over 200], [], []. unfold none. cbn [In]. repeat split; try reflexivity; intros e H; decompose [or] H; subst; try reflexivity; tauto.
Qed.
Example C61_announced_example : gesture drag95 (Some 9) 5 63 60 20 /\ v_text (handled vars0 drag95) = Some AsSibling /\
  snd (handle (handled vars0 drag95) Drop) = Post (Some 9) 5 false /\
  gesture drag91 (Some 9) 1 200 60 20 /\ v_text (handled vars0 drag91) = Some AsChild /\
  snd (handle (handled vars0 drag91) Drop) = Post (Some 9) 1 true /\
  snd (handle (handled vars0 (drag95 ++ [Enter 9; Drag 100 20])) Drop) = Nothing.
Proof. split; [apply drag95_ok|]. split; [reflexivity|]. split; [reflexivity|]. split; [apply drag91_ok|]. repeat split; reflexivity. Qed.

Section ExMP.
Import MPModel PropsMP.
Example C61_mp_example : MPInv.stores c10 (db_rows ex_db) ex_F /\ ordered [] ex_F /\
  (forall q np, MPMoveOk.temp_room c10 (db_rows ex_db) q np) /\
  In (row ex_db 9) (db_rows ex_db) /\ In (row ex_db 5) (db_rows ex_db) /\ m_pk (row ex_db 9) = 9 /\ m_pk (row ex_db 5) = 5 /\
  (exists db', posted (mp_serve c10) ex_db (snd (handle (handled vars0 drag95) Drop)) = Done db' /\
     map m_pk (get_tree (db_rows db') None None) = [7; 1; 3; 9; 10; 5; 2; 4; 6]) /\
  (exists db', posted (mp_serve c10) ex_db (snd (handle (handled vars0 drag91) Drop)) = Done db' /\
     map m_pk (get_tree (db_rows db') None None) = [7; 1; 3; 5; 9; 10; 2; 4; 6]).
Proof.
  split; [apply ex_stores|]. split; [congruence|]. split; [apply ex_temp_room|]. do 2 (split; [vm_compute; tauto|]). do 2 (split; [reflexivity|]).
  split; eexists; (split; [vm_compute; reflexivity|vm_compute; reflexivity]).
Qed.
End ExMP.

Section ExNS.
Import NSModel PropsNS.
Example C61_ns_example : NSInv.stores (ns_rows ex_db) ex_F /\ In (row ex_db 9) (ns_rows ex_db) /\ In (row ex_db 5) (ns_rows ex_db) /\
  exists db', posted (ns_serve []) ex_db (snd (handle (handled vars0 drag95) Drop)) = Done db' /\
     map n_pk (get_tree (ns_rows db') None None) = [7; 1; 3; 9; 10; 5; 2; 4; 6]%nat.
Proof.
  split; [apply ex_stores|]. do 2 (split; [vm_compute; tauto|]). eexists; (split; [vm_compute; reflexivity|vm_compute; reflexivity]).
Qed.
End ExNS.

Section ExAL.
Import ALModel PropsAL.
Example C61_al_example : ALInv.stores [] ex_t ex_F /\ In (row ex_t 9) ex_t /\ In (row ex_t 5) ex_t /\
  exists t', posted (al_serve []) ex_t (snd (handle (handled vars0 drag95) Drop)) = Done t' /\
     tree_pks [] t' = Ok [7; 1; 3; 9; 10; 5; 2; 4; 6]%nat.
Proof.
  split; [apply ex_stores|]. do 2 (split; [vm_compute; tauto|]). eexists; (split; [vm_compute; reflexivity|vm_compute; reflexivity]).
Qed.
End ExAL.

Section ExLT.
Import LTModel PropsLT.
Example C61_lt_example : LTInv.stores c0 (lt_rows ex_db) ex_F /\ In (row ex_db 9) (lt_rows ex_db) /\ In (row ex_db 5) (lt_rows ex_db) /\
  exists db', posted (lt_serve c0) ex_db (snd (handle (handled vars0 drag95) Drop)) = Done db' /\ pks db' = [7; 1; 3; 9; 10; 5; 2; 4; 6].
Proof.
  split; [apply ex_stores|]. do 2 (split; [vm_compute; tauto|]). eexists; (split; [vm_compute; reflexivity|vm_compute; reflexivity]).
Qed.
End ExLT.

(** ** What is not so

    The row is dropped right after it came over another row, before a drag event: the request
    has the relation to the row before, and the text still says so. *)
Theorem C61_early_drop_refuted : exists es n t child, snd (handle (handled vars0 es) Drop) = Post (Some n) t child /\
  child = false /\ pointer es = 118%Z /\ (exists a, es = a ++ [Enter t; Over 118]) /\ In (Drag 80 20) es /\
  upper_half 118 100 20 = false.
Proof.
  exists [Start (Some 9); Enter 2; Over 82; Drag 80 20; Enter 5; Over 118], 9, 5, false.
  split; [reflexivity|]. split; [reflexivity|]. split; [reflexivity|]. split; [exists [Start (Some 9); Enter 2; Over 82; Drag 80 20]; reflexivity|].
  split; [cbn; auto|reflexivity].
Qed.

(** A file or a link from another window is dropped on a row after the user began to drag a row
    and gave up: the row that was given up is moved. *)
Theorem C61_foreign_refuted : exists es1 es2 n t child, snd (handle (handled vars0 (es1 ++ [End])) Drop) = TypeError /\
  none starts es2 /\ es2 <> [] /\ snd (handle (handled vars0 (es1 ++ End :: es2)) Drop) = Post (Some n) t child.
Proof.
  exists [Start (Some 9); Enter 2; Over 82; Drag 80 20], [Enter 5; Over 65], 9, 5, false. split; [reflexivity|].
  split; [intros e [<-|[<-|[]]]; reflexivity|]. split; [discriminate|reflexivity].
Qed.

Print Assumptions C61_announced.
Print Assumptions C61_posts.
Print Assumptions C61_abort.
Print Assumptions C61_mp.
Print Assumptions C61_ns.
Print Assumptions C61_al.
Print Assumptions C61_lt_partial.
Print Assumptions C61_early_drop_refuted.
Print Assumptions C61_foreign_refuted.
