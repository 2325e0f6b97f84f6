(** Theorems about the deprecated entry points (C69), movenodeform_factory (C70) and the path
    attribute of ltree nodes (C71). *)
From Coq Require Import String List Arith Lia Bool Ascii ZArith.
From Verif Require Import Prelude Forest CommonModel LTText OldModel PropsLT.
Import ListNotations.
Local Open Scope list_scope.

(** ** C69: deprecated methods and handlers *)

(** Node.add_root, Node.add_child and Node.add_sibling: an unsaved instance alone is added, so is
    what the keyword arguments describe; a saved instance and a mix are refused. *)
Theorem C69_methods (model : list (nat * option Z) -> fields) (k : pykw) :
  (forall d, old_add model k = Ok d <->
     (exists i, kw_instance k = Some (Some i) /\ in_adding i = true /\ kw_fields k = [] /\ d = in_data i) \/
     ((kw_instance k = None \/ kw_instance k = Some None) /\ d = model (kw_fields k))) /\
  (old_add model k = Err ValueError <-> exists i, kw_instance k = Some (Some i) /\ kw_fields k <> []) /\
  (old_add model k = Err NodeAlreadySaved <-> exists i, kw_instance k = Some (Some i) /\ in_adding i = false /\ kw_fields k = []).
Proof.
  destruct k as [[[[a d0]|]|] f]; unfold old_add, pop_instance, new_object, check_create_args; cbn [kw_instance kw_fields in_adding in_data];
    [destruct f as [|x f], a| |]; cbn [bind in_data];
    (split; [intros d|]; [|split]); (split; intros H; [try discriminate; try (injection H as <-)|]);
    repeat match goal with
    | H : _ \/ _ |- _ => destruct H
    | H : exists _, _ |- _ => destruct H
    | H : _ /\ _ |- _ => destruct H
    | H : Some (Some _) = Some (Some _) |- _ => injection H as <-
    end; cbn in *; subst; try congruence;
    try (left; eexists (mkInst _ _); repeat split; reflexivity); try (right; split; [auto|reflexivity]);
    try (exists (mkInst true d0); repeat split; solve [auto|congruence]); try (exists (mkInst false d0); repeat split; solve [auto|congruence]).
Qed.

(** Without arguments they add an object with default values, where the manager method refuses. *)
Theorem C69_no_arguments model : old_add model (mkKw None []) = Ok (model []) /\ new_object model None None = Err ValueError.
Proof. split; reflexivity. Qed.

(** A handler does what the method does, and leaves the other keyword arguments alone. *)
Theorem C69_handler model k : fst (process model k) = old_add model k /\ kw_fields (snd (process model k)) = kw_fields k.
Proof. split; reflexivity. Qed.

(** A handler forgets its instance, and takes it out of the dictionary of the caller: the second
    process() adds an object with default values, where the method refuses the saved instance. *)
Theorem C69_twice_refuted : exists model i d,
  let k := mkKw (Some (Some i)) [] in
  fst (process model k) = Ok d /\ fst (process model (saved (snd (process model k)))) = Ok (model []) /\ model [] <> d /\
  old_add model (saved k) = Err NodeAlreadySaved /\ snd (process model k) <> k.
Proof. exists (map snd), (mkInst true [Some 5%Z]), [Some 5%Z]. cbn. repeat split; discriminate. Qed.

(** It always does so. *)
Theorem C69_twice model i : in_adding i = true ->
  let k := mkKw (Some (Some i)) [] in
  fst (process model k) = Ok (in_data i) /\ fst (process model (saved (snd (process model k)))) = Ok (model []) /\
  old_add model (saved k) = Err NodeAlreadySaved.
Proof. destruct i as [a d]. cbn. intros ->. repeat split. Qed.

Example C69_example : old_add (map snd) (mkKw None [(0, Some 7%Z)]) = Ok [Some 7%Z] /\
  old_add (map snd) (mkKw (Some (Some (mkInst true [Some 5%Z]))) []) = Ok [Some 5%Z] /\
  old_add (map snd) (mkKw (Some (Some (mkInst true [Some 5%Z]))) [(0, None)]) = Err ValueError /\
  old_add (map snd) (mkKw (Some (Some (mkInst false [Some 5%Z]))) []) = Err NodeAlreadySaved /\
  fst (process (map snd) (mkKw None [(0, Some 7%Z); (1, None)])) = Ok [Some 7%Z; None].
Proof. repeat split. Qed.

(** ** C70: movenodeform_factory *)

(** The names that the caller gave. *)
Definition given (e : exclude) : list string := match e with ENone => [] | ETuple l | EList l => l end.

(** The fields of the form: those of the model that are asked for, without the ones the caller
    excludes and without the tree fields; and the two of MoveNodeForm. *)
Theorem C70_fields model_fields tree_fields only e f :
  In f (movenodeform_factory model_fields tree_fields only e) <->
  (In f model_fields /\ (forall l, only = Some l -> In f l) /\ ~ In f (given e) /\ ~ In f tree_fields) \/
  f = "_position"%string \/ f = "_ref_node_id"%string.
Proof.
  assert (B : forall l, existsb (String.eqb f) l = true <-> In f l).
  { intros l. rewrite existsb_exists. split; [intros (x & Hx & E); apply String.eqb_eq in E; subst; auto|]. intros H. exists f. rewrite String.eqb_refl. auto. }
  assert (X : fst (factory_exclude tree_fields e) = given e ++ tree_fields) by (destruct e; reflexivity).
  unfold movenodeform_factory, form_fields. rewrite X, in_app_iff, filter_In, andb_true_iff, negb_true_iff, <- not_true_iff_false, B, in_app_iff.
  assert (O : match only with Some l => existsb (String.eqb f) l | None => true end = true <-> forall l, only = Some l -> In f l).
  { destruct only as [l|].
    - rewrite B. split; [intros H l' E; injection E as <-; auto|auto].
    - split; [intros _ l' E; discriminate|auto]. }
  rewrite O. cbn [In]. intuition (subst; auto).
Qed.

(** No tree field can be edited in such a form, whatever the caller asks for. *)
Theorem C70_no_tree_fields model_fields only e :
  (forall f, In f mp_tree_fields -> ~ In f (movenodeform_factory model_fields mp_tree_fields only e)) /\
  (forall f, In f ns_tree_fields -> ~ In f (movenodeform_factory model_fields ns_tree_fields only e)) /\
  (forall f, In f al_tree_fields -> ~ In f (movenodeform_factory model_fields al_tree_fields only e)) /\
  (forall f, In f lt_tree_fields -> ~ In f (movenodeform_factory model_fields lt_tree_fields only e)).
Proof.
  repeat split; intros f Hf H; apply C70_fields in H; destruct H as [(_ & _ & _ & H)|H]; try (apply H; exact Hf);
    cbn in Hf; destruct H as [-> | ->]; intuition discriminate.
Qed.

(** A tuple is left alone; a list of the caller grows, but the next form made with it has the
    same fields. *)
Theorem C70_argument model_fields tree_fields only e :
  (forall l, e = ETuple l -> snd (factory_exclude tree_fields e) = e) /\
  movenodeform_factory model_fields tree_fields only (snd (factory_exclude tree_fields e)) = movenodeform_factory model_fields tree_fields only e.
Proof.
  split; [intros l ->; reflexivity|]. destruct e; try reflexivity. unfold movenodeform_factory, form_fields. f_equal. apply filter_ext. intros f. f_equal. f_equal.
  cbn. rewrite !existsb_app. destruct (existsb (String.eqb f) tree_fields); rewrite ?orb_true_r, ?orb_false_r; reflexivity.
Qed.

Theorem C70_list_refuted : exists l, snd (factory_exclude mp_tree_fields (EList l)) <> EList l.
Proof. exists ["secret"%string]. discriminate. Qed.

Example C70_example :
  movenodeform_factory ["id"; "path"; "depth"; "numchild"; "desc"; "secret"]%string mp_tree_fields None (EList ["secret"%string])
    = ["id"; "desc"; "_position"; "_ref_node_id"]%string /\
  movenodeform_factory ["id"; "path"; "depth"; "numchild"; "desc"; "secret"]%string mp_tree_fields (Some ["path"; "desc"]%string) ENone
    = ["desc"; "_position"; "_ref_node_id"]%string.
Proof. split; reflexivity. Qed.

(** ** C71: the path attribute *)

(** What is put in is read as a path value: None stays None, text is split at the dots. *)
Theorem C71_set_get s v :
  (v = VNone -> proxy_get (proxy_set s v) = Ok None) /\
  (v <> VNone -> forall p, path_value v = Ok p -> proxy_get (proxy_set s v) = Ok (Some p)) /\
  (proxy_get (proxy_set s v) = Err ValueError <-> v = VOther).
Proof.
  destruct v as [|t|l|]; cbn; (split; [|split]); try (intros; congruence); try (split; congruence).
  - intros _ p E. destruct t; injection E as <-; auto.
  - destruct t; split; discriminate.
Qed.

(** A row that was read: the attribute is the path that was written, and save() writes the same
    text again. *)
Theorem C71_load p : Forall (fun l => l <> [] /\ ~ In dot l /\ forall c, In c l -> is_space c = false) p ->
  exists s, get_db_prep_value (VList p) = Ok (Some s) /\
  exists r, load false (Some s) = Ok r /\ proxy_get r = Ok (Some p) /\ save r (Some s) = Ok (Some s).
Proof.
  intros H. destruct (C33_database p H) as (s & A & _ & B & _). exists s. split; auto. unfold load. rewrite B. cbn [bind].
  exists (Some (VList p)). auto.
Qed.

(** save() leaves a column whose field was deferred alone. *)
Theorem C71_deferred_save column : exists r, load true column = Ok r /\ save r column = Ok column.
Proof. exists None. split; reflexivity. Qed.

(** A deferred path cannot be read: KeyError, in place of the query that Django makes for other
    deferred fields. *)
Theorem C71_deferred_refuted : exists column r, load true (Some column) = Ok r /\ proxy_get r = Err KeyError /\
  exists q p, load false (Some column) = Ok q /\ proxy_get q = Ok (Some p).
Proof. exists (txt "B.C"), None. split; [|split]; auto. exists (Some (VList [txt "B"; txt "C"])), [txt "B"; txt "C"]. split; reflexivity. Qed.

Example C71_example : proxy_get (proxy_set None (VStr (txt " B.C.A "))) = Ok (Some [txt "B"; txt "C"; txt "A"]) /\
  proxy_get (proxy_set None VNone) = Ok None /\ load false (Some (txt "B.C")) = Ok (Some (VList [txt "B"; txt "C"])) /\
  save (Some (VStr (txt "B.C"))) None = Ok (Some (txt "B.C")).
Proof. repeat split. Qed.

Print Assumptions C69_methods.
Print Assumptions C69_no_arguments.
Print Assumptions C69_handler.
Print Assumptions C69_twice_refuted.
Print Assumptions C69_twice.
Print Assumptions C70_fields.
Print Assumptions C70_no_tree_fields.
Print Assumptions C70_argument.
Print Assumptions C70_list_refuted.
Print Assumptions C71_set_get.
Print Assumptions C71_load.
Print Assumptions C71_deferred_save.
Print Assumptions C71_deferred_refuted.
