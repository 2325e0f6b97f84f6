(** The views of the admin with permissions and transactions: specification and the generic
    part of the proof (C55). *)
From Coq Require Import String List Arith Lia Bool ZArith Permutation.
From Verif Require Import Prelude Forest SpecFacts SpecSane SpecKids SpecPerm CommonModel Order History FormModel FormSpec AdminModel
  SiteModel Site AdminViewModel.
Import ListNotations.

(** ** Specification *)

(** What a request asks for. *)
Definition asks (v : view) : option request :=
  match v with
  | ChangeForm n d ref p _ _ => Some (Edit n d ref p)
  | AddForm x ref p _ _ => Some (Create x ref p)
  | MoveNode n t (Some below) => Some (Drag n t below)
  | DeleteNode n => Some (Call (CDelete [n]))
  | _ => None
  end.

(** Who may ask for it. *)
Definition granted (u : user) (v : view) : Prop :=
  match v with
  | ChangeForm n _ _ _ _ _ => may_change u (Some n) = true
  | AddForm _ _ _ _ _ => may_add u = true
  | MoveNode n _ _ => (may_view u = true \/ may_change u None = true) /\ may_change u (Some n) = true
  | DeleteNode n => may_delete u (Some n) = true
  | ListOf _ => may_view u = true
  end.

(** No errors in the other fields and in the inlines. *)
Definition flawless (v : view) : Prop :=
  match v with
  | ChangeForm _ _ _ _ valid inlines | AddForm _ _ _ valid inlines => valid = true /\ inlines = true
  | _ => True
  end.

(** [rs] are some of the requests, in their order, each of them granted and without errors. *)
Inductive picks : list (user * view) -> list request -> Prop :=
| picks_nil : picks [] []
| picks_skip u v l rs : picks l rs -> picks ((u, v) :: l) rs
| picks_take u v r l rs : asks v = Some r -> granted u v -> flawless v -> picks l rs -> picks ((u, v) :: l) (r :: rs).

(** The object that a form saves. *)
Definition saves (r : request) (i : nat) : Prop :=
  match r with Edit n _ _ _ => i = n | Create x _ _ => i = nid x | _ => False end.

(** The objects that must exist. *)
Definition names (v : view) (i : nat) : Prop :=
  match v with
  | ChangeForm n _ _ _ _ _ | DeleteNode n => i = n
  | MoveNode n t _ => i = n \/ i = t
  | _ => False
  end.

(** A user who deletes a node may delete all that is below it. *)
Definition whole_branch (u : user) (F : forest node) (v : view) : Prop :=
  forall n, v = DeleteNode n -> In n (ids F) /\ forall i, i = n \/ descends F n i -> may_delete u (Some i) = true.

(** A rollback reaches the model's database, or fails. *)
Definition careful (st : setup) : Prop := default_db st = true \/ atomic_requests st = false.

Section Generic.
Variable DB : Type.
Variable s : site DB.
Variable st : setup.
Hypothesis C : careful st.

Lemma with_errors_keeps (db work : DB) : with_errors st db work = (db, FormShown) \/ with_errors st db work = (db, NoRollback).
Proof. unfold with_errors. destruct C as [-> | ->]; auto. destruct (default_db st); auto. Qed.

(** Whatever is not answered with success has changed nothing. *)
Lemma visit_keeps u db v : snd (visit s st u db v) <> Saved -> fst (visit s st u db v) = db.
Proof.
  assert (Fv : forall saved obj inl, snd (form_view s st db saved obj inl) <> Saved -> fst (form_view s st db saved obj inl) = db).
  { intros saved obj inl. unfold form_view. assert (K := with_errors_keeps db).
    destruct saved as [db1| |e]; auto.
    - destruct inl; [destruct (s_resave s db1 obj); cbn; congruence|]. destruct (K db1) as [-> | ->]; auto.
    - destruct (K db) as [-> | ->]; auto. }
  destruct v as [n d ref p va inl|x ref p va inl|n t below|n|q]; cbn [visit].
  - destruct (negb _); auto. destruct (negb _); auto.
  - destruct (negb _); auto.
  - destruct (negb _); auto. destruct below; auto. destruct (negb _); auto. destruct (negb _); auto.
    destruct (s_serve _ _ _); cbn; congruence.
  - destruct (negb _); auto. destruct (negb _); auto. destruct (s_collected s db n); auto. destruct (negb _); auto.
    destruct (s_serve _ _ _); cbn; congruence.
  - destruct (negb _); auto. destruct (s_context s db q) as [l|[]]; auto.
Qed.

(** What is answered with success was granted, had no errors, and was done. *)
Lemma visit_saved u db v : snd (visit s st u db v) = Saved ->
  exists r db1, asks v = Some r /\ granted u v /\ flawless v /\ s_serve s db r = Done db1 /\
    (fst (visit s st u db v) = db1 \/ exists i, saves r i /\ s_resave s db1 i = Ok (fst (visit s st u db v))).
Proof.
  assert (Fv : forall (va : bool) r obj inl, snd (form_view s st db (if va then s_serve s db r else Refused) obj inl) = Saved ->
    va = true /\ inl = true /\ exists db1, s_serve s db r = Done db1 /\
      s_resave s db1 obj = Ok (fst (form_view s st db (if va then s_serve s db r else Refused) obj inl))).
  { intros va r obj inl. unfold form_view. assert (K := with_errors_keeps db).
    destruct va; [|destruct (K db) as [-> | ->]; discriminate].
    destruct (s_serve s db r) as [db1| |e]; [|destruct (K db) as [-> | ->]; discriminate|discriminate].
    destruct inl; [|destruct (K db1) as [-> | ->]; discriminate]. intros H. split; auto. split; auto. exists db1. split; auto.
    destruct (s_resave s db1 obj) as [db2|e]; [reflexivity|discriminate]. }
  destruct v as [n d ref p va inl|x ref p va inl|n t below|n|q]; cbn [visit asks granted flawless].
  - unfold object. destruct (s_has s db n) eqn:Hn; [|destruct (negb _); discriminate].
    destruct (may_change u (Some n)) eqn:M; cbn [negb]; [|discriminate]. intros H.
    destruct (Fv _ _ _ _ H) as (-> & -> & db1 & E & R). exists (Edit n d ref p), db1. cbn [saves]. eauto 10.
  - destruct (may_add u) eqn:M; cbn [negb]; [|discriminate]. intros H.
    destruct (Fv _ _ _ _ H) as (-> & -> & db1 & E & R). exists (Create x ref p), db1. cbn [saves]. eauto 10.
  - destruct (may_view u || may_change u None)%bool eqn:M; cbn [negb]; [|discriminate]. apply orb_true_iff in M.
    destruct below as [below|]; [|discriminate]. destruct (negb _); [discriminate|].
    destruct (may_change u (Some n)) eqn:M'; cbn [negb]; [|discriminate].
    destruct (s_serve s db (Drag n t below)) as [db1| |e] eqn:E; try discriminate. intros _. exists (Drag n t below), db1. cbn. auto 10.
  - unfold object. destruct (s_has s db n) eqn:Hn; [|destruct (negb _); discriminate].
    destruct (may_delete u (Some n)) eqn:M; cbn [negb]; [|discriminate].
    destruct (s_collected s db n) as [l|e]; [|discriminate]. destruct (negb _); [discriminate|].
    destruct (s_serve s db (Call (CDelete [n]))) as [db1| |e] eqn:E; try discriminate. intros _. exists (Call (CDelete [n])), db1. cbn. auto 10.
  - destruct (negb _); [discriminate|]. destruct (s_context s db q) as [l|[]]; discriminate.
Qed.

(** What is granted, has no errors and can be done is done. *)
Lemma visit_done u db v r db1 : asks v = Some r -> granted u v -> flawless v -> s_serve s db r = Done db1 ->
  (forall n, names v n -> s_has s db n = true) ->
  (forall n, v = DeleteNode n -> exists l, s_collected s db n = Ok l /\ forall i, In i l -> may_delete u (Some i) = true) ->
  (forall i, saves r i -> s_resave s db1 i = Ok db1) ->
  visit s st u db v = (db1, Saved).
Proof.
  intros Ev Gr Fl E Kn De Re. destruct v as [n d ref p va inl|x ref p va inl|n t [below|]|n|q]; try discriminate; injection Ev as <-;
    cbn [visit granted flawless names saves] in *.
  - destruct Fl as [-> ->]. unfold object. rewrite (Kn n eq_refl), Gr. cbn [negb]. unfold form_view. rewrite E, (Re n eq_refl). auto.
  - destruct Fl as [-> ->]. rewrite Gr. cbn [negb]. unfold form_view. rewrite E, (Re _ eq_refl). auto.
  - destruct Gr as [G1 G2]. replace (may_view u || may_change u None)%bool with true by (symmetry; apply orb_true_iff; auto).
    rewrite (Kn n), (Kn t) by auto. cbn [negb andb]. rewrite G2, E. auto.
  - unfold object. rewrite (Kn n eq_refl), Gr. cbn [negb]. destruct (De n eq_refl) as (l & -> & H).
    replace (forallb (fun i => may_delete u (Some i)) l) with true by (symmetry; apply forallb_forall; auto). rewrite E. auto.
Qed.

(** The requests that were answered with success. *)
Fixpoint made (db : DB) (l : list (user * view)) : list request :=
  match l with
  | [] => []
  | (u, v) :: l =>
      match snd (visit s st u db v), asks v with Saved, Some r => [r] | _, _ => [] end ++ made (fst (visit s st u db v)) l
  end.

Variable K : kind DB.
Variable o : ordering.
Variable stores : DB -> forest node -> Prop.
Variable ok : DB -> request -> Prop.
Hypothesis step : forall db F r, stores db F -> ok db r ->
  exists G, stores (after db (s_serve s db r)) G /\ next_tree K o db F r (s_serve s db r) G.
Hypothesis resaved : forall db F r db1 i, stores db F -> ok db r -> s_serve s db r = Done db1 -> saves r i -> s_resave s db1 i = Ok db1.

Theorem visits_days : forall l db F, stores db F -> all_ok (s_serve s) ok db (made db l) ->
  picks l (made db l) /\ visits s st db l = days (s_serve s) db (made db l).
Proof.
  induction l as [|[u v] l IH]; intros db F S A; [split; [constructor|reflexivity]|].
  assert (D : snd (visit s st u db v) = Saved \/ snd (visit s st u db v) <> Saved) by (destruct (snd (visit s st u db v)); auto; right; discriminate).
  destruct D as [D|D].
  - destruct (visit_saved u db v D) as (r & db1 & Ev & Gr & Fl & E & Ef). cbn [made visits] in *. rewrite D, Ev in *. cbn [app] in *.
    destruct A as [Ok1 A]. cbn [days]. rewrite E in *. cbn [after] in *.
    assert (Ef' : fst (visit s st u db v) = db1).
    { destruct Ef as [Ef|(i & Si & Ef)]; auto. rewrite (resaved db F r db1 i S Ok1 E Si) in Ef. congruence. }
    rewrite Ef' in *. destruct (step db F r S Ok1) as (G & SG & _). rewrite E in SG. cbn [after] in SG.
    destruct (IH db1 G SG A) as [P V]. split; auto. apply picks_take; auto.
  - assert (Ef := visit_keeps u db v D). cbn [made visits] in *. rewrite Ef in *.
    replace (match snd (visit s st u db v) with Saved => match asks v with Some r => [r] | None => [] end | _ => [] end) with (@nil request) in *.
    + cbn [app] in *. destruct (IH db F S A) as [P V]. split; auto. apply picks_skip; auto.
    + destruct (snd (visit s st u db v)); congruence.
Qed.
End Generic.
Arguments made {DB} _ _ _ _.

(** ** A saved node is in the tree *)
Lemma served_saves {DB} (K : kind DB) o db F r a G db1 i : next_tree K o db F r a G -> a = Done db1 -> saves r i ->
  (forall H, same K H G -> In i (ids H) -> In i (ids G)) -> In i (ids G).
Proof.
  intros N -> Si Sm. cbn [next_tree] in N. destruct N as (H & Sv & Sk). apply (Sm H); auto. clear Sm Sk.
  assert (KL : forall up L1 x L2, kid_list up H = Some (L1 ++ x :: L2) -> In (nid x) (ids H)).
  { intros up L1 x L2 E. apply (kl_in up H x). rewrite (kl_kid_list _ _ _ E). apply in_elt. }
  destruct r as [c|n t below|n d ref p|x ref p|keep next data parent|fp]; cbn [saves] in Si; try tauto; subst i; cbn [served] in Sv.
  - destruct Sv as (Hn & _ & _ & P & _ & [(_ & _ & ->)|Sv]); [rewrite set_data_ids; auto|]. destruct (sorts o).
    + destruct Sv as (up & _ & a & L1 & L2 & <- & M & _). apply (KL up L1 a L2). apply M.
    + destruct Sv as (_ & up & a & L1 & L2 & <- & M & _). apply (KL up L1 a L2). apply M.
  - destruct Sv as (_ & _ & P & _ & up & L1 & L2 & A & _). apply (KL up L1 x L2). apply A.
Qed.

Lemma served_names {DB} (K : kind DB) o db F u v r a G db1 : next_tree K o db F r a G -> a = Done db1 -> asks v = Some r ->
  whole_branch u F v -> forall n, names v n -> In n (ids F).
Proof.
  intros N -> Ev Wb. destruct N as (H & Sv & _).
  destruct v as [n d ref p va inl|x ref p va inl|n t [below|]|n|q]; try discriminate; injection Ev as <-; cbn [names served] in *.
  - intros i ->. apply Sv.
  - tauto.
  - destruct Sv as (Ht & _ & a & Ha & <- & _). intros i [-> | ->]; auto. apply in_map. auto.
  - intros i ->. apply (Wb n eq_refl).
Qed.
