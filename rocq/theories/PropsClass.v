(** Theorems about the model class: the class of the nodes that are returned (C75), the managers
    (C76), the methods that have moved (C77), and the kind of tree in the admin (C78). *)
From Coq Require Import String List Arith Lia Bool ZArith.
From Verif Require Import Prelude Forest SpecFacts CommonModel Order History Fixture ClassModel.
From Verif Require MPModel MPInv PropsMP MPRefuted NSModel NSInv PropsNS ALModel ALInv ALHist PropsAL LTModel LTInv PropsLT.
Import ListNotations.
Local Open Scope list_scope.

(** ** C75: the class of the nodes *)

Lemma field_model_none c : field_model c = None <-> ~ In Table c.
Proof.
  induction c as [|d c IH]; cbn [field_model]; [cbn; tauto|]. destruct (field_model c) as [x|].
  - split; [discriminate|]. intros H. exfalso. apply H. right. destruct (in_dec (fun a b : decl => ltac:(decide equality)) Table c) as [i|i]; auto. apply IH in i. discriminate.
  - destruct d; cbn; split; try discriminate; auto; intros H; try (intros [X|X]; [discriminate|]); try (apply (proj1 IH); auto); exfalso; apply H; auto.
Qed.

Lemma field_model_base l b : ~ In Table b -> field_model (l ++ Table :: b) = Some (Table :: b).
Proof.
  intros H. induction l as [|d l IH]; cbn [app field_model]; [|rewrite IH; auto].
  rewrite (proj2 (field_model_none b) H). auto.
Qed.

Definition abstract_only (l : list decl) : Prop := Forall (fun d => d = Abstract) l.

Lemma first_model_at l b : abstract_only l -> first_model (l ++ Table :: b) = Some (Table :: b).
Proof. induction 1 as [|d l -> H IH]; auto. Qed.

Lemma first_model_in l b p : first_model (l ++ Table :: b) = Some p -> length p = length (Table :: b) -> abstract_only l.
Proof.
  induction l as [|d l IH]; cbn [app first_model]; [constructor|]. destruct d.
  - intros H E. constructor; auto. apply IH; auto.
  - intros H E. injection H as <-. cbn in E. rewrite app_length in E. cbn in E. lia.
  - intros H E. injection H as <-. cbn in E. rewrite app_length in E. cbn in E. lia.
Qed.

(** [Table :: b] is the class that implements the tree: the one with a table none of whose bases
    has one. The nodes that managers return have that class, unless the model is a proxy for
    it: then they have the class of the model. What is missing: proxies of proxies. *)
Theorem C75_class_partial l b : ~ In Table b ->
  (forall l', l = Proxy :: l' -> abstract_only l' -> tree_model (l ++ Table :: b) = Some (l ++ Table :: b)) /\
  ((forall l', l = Proxy :: l' -> ~ abstract_only l') -> tree_model (l ++ Table :: b) = Some (Table :: b)).
Proof.
  intros H. unfold tree_model. rewrite field_model_base by auto. split.
  - intros l' -> A. cbn [app proxy_for]. rewrite first_model_at by auto. rewrite Nat.eqb_refl. auto.
  - intros N. destruct l as [|[] l]; cbn [app proxy_for]; auto.
    destruct (first_model _) as [p|] eqn:E; auto. destruct (Nat.eqb_spec (length p) (length (Table :: b))) as [X|X]; auto.
    exfalso. apply (N l eq_refl). apply (first_model_in l b p); auto.
Qed.

(** Every node of the tree, that is, every row in the table of the class that implements it, is
    found, whatever the class of the model, and with the same primary key. *)
Theorem C75_all_nodes has l b k : ~ In Table b -> has (Table :: b) k = true ->
  exists m, tree_model (l ++ Table :: b) = Some m /\ by_tree_model has (l ++ Table :: b) k = Ok (m, k).
Proof.
  intros H Hk. unfold by_tree_model.
  assert (X : tree_model (l ++ Table :: b) = Some (Table :: b) \/
    exists l', l = Proxy :: l' /\ abstract_only l' /\ tree_model (l ++ Table :: b) = Some (l ++ Table :: b)).
  { destruct (C75_class_partial l b H) as [A B]. destruct l as [|[] l]; try (left; apply B; discriminate).
    destruct (Forall_dec (fun d => d = Abstract) (fun d => ltac:(destruct d; [left|right|right]; congruence)) l) as [a|a].
    - right. exists l. split; [auto|]. split; [exact a|]. apply (A l); auto.
    - left. apply B. intros l' E. injection E as <-. auto. }
  destruct X as [-> | (l' & -> & Ab & ->)]; eexists; split; eauto; unfold get_object.
  - cbn. rewrite Hk. auto.
  - cbn [app concrete]. assert (E : concrete (l' ++ Table :: b) = Some (Table :: b)) by (clear - Ab; induction Ab as [|d l' -> Ab IH]; auto).
    rewrite E, Hk. auto.
Qed.

(** A proxy of a proxy: the nodes do not have the class of the model. *)
Theorem C75_proxy_refuted : exists c, hd_error c = Some Proxy /\ exists m, tree_model c = Some m /\ m <> c /\ hd_error m = Some Table.
Proof. exists [Proxy; Proxy; Table; Abstract; Abstract]. split; auto. eexists. split; [reflexivity|]. split; [discriminate|reflexivity]. Qed.

(** get_parent of adjacency lists gives the parent in the class of the other methods, for models
    with a table and for proxies of the class that implements the tree. *)
Theorem C75_al_parent_partial has l b k : ~ In Table b -> has (Table :: b) k = true ->
  (forall l', l = Proxy :: l' -> abstract_only l') ->
  al_get_parent has (l ++ Table :: b) k = by_tree_model has (l ++ Table :: b) k.
Proof.
  intros H Hk A. unfold al_get_parent, by_tree_model, tree_model. rewrite field_model_base by auto.
  destruct l as [|[] l]; cbn [app proxy_for]; auto. rewrite first_model_at by auto. rewrite Nat.eqb_refl. auto.
Qed.

(** For a proxy of an inherited model get_parent looks for the parent among the nodes of the
    inherited model, and raises if it is not one; all other methods find it. *)
Theorem C75_al_inherited_refuted : exists has c k m, has [Table; Abstract; Abstract] k = true /\
  field_model c = Some [Table; Abstract; Abstract] /\
  by_tree_model has c k = Ok (m, k) /\ al_get_parent has c k = Err DoesNotExist.
Proof.
  exists (fun T k => match T with [Table; Abstract; Abstract] => true | _ => k =? 3 end), [Proxy; Table; Table; Abstract; Abstract], 2, [Table; Abstract; Abstract].
  auto.
Qed.

(** For a proxy of a proxy get_parent gives the class of the model, the other methods that of the
    tree. *)
Theorem C75_al_proxy_refuted : exists has c k m m', by_tree_model has c k = Ok (m, k) /\ al_get_parent has c k = Ok (m', k) /\ m <> m'.
Proof.
  exists (fun _ _ => true), [Proxy; Proxy; Table; Abstract; Abstract], 2, [Table; Abstract; Abstract], [Proxy; Proxy; Table; Abstract; Abstract].
  split; auto. split; auto. discriminate.
Qed.

Example C75_example :
  tree_model [Table; Abstract; Abstract] = Some [Table; Abstract; Abstract] /\
  tree_model [Table; Abstract; Table; Abstract; Abstract] = Some [Table; Abstract; Abstract] /\
  tree_model [Proxy; Abstract; Table; Abstract; Abstract] = Some [Proxy; Abstract; Table; Abstract; Abstract] /\
  tree_model [Proxy; Table; Table; Abstract; Abstract] = Some [Table; Abstract; Abstract] /\
  by_tree_model (fun T k => (length T =? 3) || (k =? 3)) [Proxy; Table; Table; Abstract; Abstract] 2 = Ok ([Table; Abstract; Abstract], 2).
Proof. repeat split; reflexivity. Qed.

(** ** C76: managers *)

Lemma managers_seen n l : forall seen, In n seen -> by_name n (managers seen l) = None.
Proof.
  induction l as [|[m k] l IH]; intros seen Hn; auto. cbn [managers]. destruct (existsb _ seen) eqn:E; auto.
  unfold by_name. cbn [find fst]. destruct (String.eqb_spec m n) as [->|N].
  - assert (X : existsb (String.eqb n) seen = true); [|congruence]. apply existsb_exists. exists n. split; auto. apply String.eqb_refl.
  - apply (IH (m :: seen)). right. auto.
Qed.

Lemma by_name_managers n l : forall seen, ~ In n seen -> by_name n (managers seen l) = by_name n l.
Proof.
  induction l as [|[m k] l IH]; intros seen Hn; auto. cbn [managers]. destruct (existsb _ seen) eqn:E.
  - rewrite IH by auto. unfold by_name. cbn [find fst]. destruct (String.eqb_spec m n) as [->|N]; auto.
    apply existsb_exists in E. destruct E as (x & Hx & Ex). apply String.eqb_eq in Ex. subst x. destruct (Hn Hx).
  - unfold by_name. cbn [find fst]. destruct (String.eqb_spec m n) as [->|N]; auto.
    apply (IH (m :: seen)). intros [X|X]; auto.
Qed.

Lemma by_name_app n l l' : ~ In n (map fst l) -> by_name n (l ++ l') = by_name n l'.
Proof.
  induction l as [|[m k] l IH]; intros H; auto. unfold by_name in *. cbn [app find fst map] in *.
  destruct (String.eqb_spec m n) as [->|N]; [destruct H; left; auto|]. apply IH. intros X. apply H. right. auto.
Qed.

(** [tree_only c]: no class of the model defines "objects", or only as a manager of the tree. *)
Definition tree_only (c : list mlevel) : Prop := forall l m, In l c -> In ("objects"%string, m) (lv_managers l) -> m = TreeManager.

Lemma tree_objects c : tree_only c -> objects (c ++ tree_levels) = Ok TreeManager.
Proof.
  intros H. unfold objects, all_managers. rewrite by_name_managers by (intros []). rewrite flat_map_app.
  assert (K : forall x, In ("objects"%string, x) (flat_map lv_managers c) -> x = TreeManager).
  { intros x Hx. apply in_flat_map in Hx. destruct Hx as (l & Hl & Hx). eapply H; eauto. }
  revert K. generalize (flat_map lv_managers c). clear. intros L K. unfold by_name.
  induction L as [|[n m] L IH]; [reflexivity|]. cbn [app find fst].
  destruct (String.eqb_spec n "objects") as [->|N].
  - cbn. rewrite (K m); auto. left. auto.
  - apply IH. intros x Hx. apply K. right. auto.
Qed.

(** Node.delete deletes the node and what is below it, if no class replaces "objects" by a manager
    that is not one of the tree. The system check is about another manager ([C76_check_refuted]). *)
Theorem C76_mp_partial cfg c t F n : 2 <= MPModel.radix cfg -> 1 <= MPModel.steplen cfg -> MPInv.stores cfg t F -> In n t -> tree_only c ->
  exists t', mp_node_delete cfg (c ++ tree_levels) t n = Ok t' /\ MPInv.stores cfg t' (remove (MPModel.m_pk n) F).
Proof.
  intros R1 R2 S Hn H. unfold mp_node_delete. rewrite tree_objects by auto. eexists. split; [reflexivity|]. apply PropsMP.C06_delete_node; auto.
Qed.

Theorem C76_ns_partial c db F n : NSInv.stores (NSModel.ns_rows db) F -> In n (NSModel.ns_rows db) -> tree_only c ->
  exists t', ns_node_delete (c ++ tree_levels) db n = Ok t' /\ NSInv.stores t' (remove (NSModel.n_pk n) F).
Proof.
  intros S Hn H. unfold ns_node_delete. rewrite tree_objects by auto. eexists. split; [reflexivity|]. apply PropsNS.C19_delete_node; auto.
Qed.

Theorem C76_lt_partial cfg c db F n : LTInv.stores cfg (LTModel.lt_rows db) F -> In n (LTModel.lt_rows db) -> tree_only c ->
  exists t', lt_node_delete (c ++ tree_levels) db n = Ok t' /\ LTInv.stores cfg t' (remove (LTModel.l_pk n) F).
Proof.
  intros S Hn H. unfold lt_node_delete. rewrite tree_objects by auto. eexists. split; [reflexivity|]. eapply PropsLT.C32_delete_node; eauto.
Qed.

(** Adjacency lists do not need their manager. *)
Theorem C76_al o c t F n : ALInv.stores o t F -> In n t ->
  exists t', al_node_delete (c ++ tree_levels) t n = Ok t' /\ ALInv.stores o t' (remove (ALModel.a_pk n) F).
Proof.
  intros S Hn. unfold al_node_delete. assert (X : exists m, objects (c ++ tree_levels) = Ok m).
  { unfold objects, all_managers. rewrite by_name_managers by (intros []). rewrite flat_map_app. unfold by_name.
    generalize (flat_map lv_managers c). intros L. induction L as [|[n' m] L IH]; [cbn; eauto|]. cbn [app find fst].
    destruct (String.eqb n' "objects"); cbn; eauto. }
  destruct X as [m ->]. cbn [bind]. eexists. split; [reflexivity|]. rewrite <- remove_all_one by apply S.
  unfold ALModel.delete_node. apply (ALHist.delete_ok o t F (fun i => i =? ALModel.a_pk n) S).
Qed.

(** A model that passes the check, because its first manager is one of the tree, and that defines
    "objects" as another manager: deleting a node leaves its children without a parent. *)
Theorem C76_check_refuted : exists c t F n t', check (c ++ tree_levels) = Ok [] /\
  MPInv.stores PropsMP.c10 t F /\ In n t /\ mp_node_delete PropsMP.c10 (c ++ tree_levels) t n = Ok t' /\
  ~ exists F', MPInv.stores PropsMP.c10 t' F'.
Proof.
  exists [mkLevel [("tree", TreeManager); ("objects", OtherManager)] None]%string, (MPModel.db_rows PropsMP.ex_db), ex_F.
  exists (nth 0 (filter (fun r => MPModel.m_pk r =? 2) (MPModel.db_rows PropsMP.ex_db)) (MPModel.mkMP 0 [] 0 0 [])). eexists.
  split; [reflexivity|]. split; [apply PropsMP.ex_stores|]. split; [vm_compute; auto 20|]. split; [vm_compute; reflexivity|].
  apply MPRefuted.not_stored; [apply PropsMP.le_b; reflexivity|apply PropsMP.le_b; reflexivity|]. vm_compute. discriminate.
Qed.

(** E001 says that the default manager is not one of the tree, and nothing else. *)
Theorem C76_check c m : default_manager c = Ok m ->
  check c = Ok (match m with TreeManager => [] | OtherManager => ["treebeard.E001"%string] end).
Proof. intros H. unfold check. rewrite H. destruct m; reflexivity. Qed.

(** The first manager that a class defines decides, if it defines one and Meta does not name
    another; without managers of its own, a class has the one of its base. *)
Theorem C76_first l n m ms b : lv_managers l = (n, m) :: ms -> lv_default l = None -> default_manager (l :: b) = Ok m.
Proof. intros E D. unfold default_manager, all_managers. rewrite D, E. cbn [flat_map]. rewrite E. reflexivity. Qed.
Theorem C76_inherits l p b : lv_managers l = [] -> lv_default l = None -> (lv_default p <> None \/ lv_managers p <> []) ->
  default_manager (l :: p :: b) = default_manager (p :: b).
Proof.
  intros E D H. unfold default_manager, all_managers. rewrite D, E. cbn [flat_map]. rewrite E. cbn [app].
  destruct (lv_default p); auto. destruct (lv_managers p); auto. exfalso. destruct H as [H|H]; auto.
Qed.

(** The manager that Meta names decides, whatever the order; it may be one of a base class.  When
    no class has a manager of that name, Django raises ValueError. *)
Theorem C76_named l n b : lv_default l = Some n ->
  default_manager (l :: b) = match find (fun x => String.eqb (fst x) n) (flat_map lv_managers (l :: b)) with
                             | Some x => Ok (snd x) | None => Err ValueError end.
Proof.
  intros D. unfold default_manager, all_managers. rewrite D, by_name_managers by (intros []). unfold by_name.
  destruct (find _ _); reflexivity.
Qed.

Example C76_inherits_example :
  let p := mkLevel [("objects", TreeManager); ("published", OtherManager)]%string (Some "published"%string) in
  default_manager ([mkLevel [] None; p] ++ tree_levels) = Ok OtherManager /\ default_manager ([p] ++ tree_levels) = Ok OtherManager.
Proof. split; reflexivity. Qed.

Example C76_example :
  let published := mkLevel [("published", OtherManager)]%string None in
  let both := mkLevel [("objects", TreeManager); ("published", OtherManager)]%string None in
  check ([published] ++ tree_levels) = Ok ["treebeard.E001"%string] /\ objects ([published] ++ tree_levels) = Ok TreeManager /\
  check ([both] ++ tree_levels) = Ok [] /\ tree_only [published; both] /\ check ([mkLevel [] None; both] ++ tree_levels) = Ok [] /\
  check ([mkLevel [("published", OtherManager)] (Some "objects")]%string ++ tree_levels) = Ok [] /\
  check ([mkLevel [] (Some "published")]%string ++ tree_levels) = Err ValueError.
Proof.
  cbv zeta. repeat split; try reflexivity.
  intros l m [<-|[<-|[]]]; cbn; intuition congruence.
Qed.

(** ** C77: the methods that have moved *)

Definition has_body (b : res (body * bool)) : bool := match b with Ok (OfTree, _) | Ok (OfBase, _) => true | _ => false end.

(** Every method that has moved still works on nodes: it runs a method of the manager that is
    implemented, with the node as first argument or, for the class methods, without it. The
    exceptions are methods that the managers of some trees do not have. *)
Theorem C77_moved k name : In name (moved_classmethods ++ moved_methods) ->
  (name = "fix_tree"%string -> k = MP) -> (name = "find_problems"%string -> k = MP \/ k = NS) ->
  exists b, old_call k name = Ok (b, existsb (String.eqb name) moved_methods) /\ (b = OfTree \/ b = OfBase) /\ manager_attr k name = Ok b.
Proof.
  intros H F P. cbn in H.
  repeat (destruct H as [<-|H]; [destruct k; first [solve [eexists; split; [reflexivity|split; [auto|reflexivity]]] | (specialize (F eq_refl); discriminate) | (destruct (P eq_refl); discriminate)]|]).
  destruct H.
Qed.

(** A name of a class method is not one of a method. *)
Theorem C77_apart name : In name moved_classmethods -> existsb (String.eqb name) moved_methods = false.
Proof. cbn [moved_classmethods In]. intros H. repeat (destruct H as [<-|H]; [reflexivity|]). destruct H. Qed.

(** The others raise AttributeError, after a warning that says to use the manager. *)
Theorem C77_refuted : exists name, In name moved_classmethods /\
  forall k, k <> MP -> old_call k name = Err AttributeError.
Proof. exists "fix_tree"%string. split; [cbn; auto 20|]. intros [] H; try reflexivity. destruct (H eq_refl). Qed.

(** No manager is left with a method that raises NotImplementedError. *)
Theorem C77_implemented k name : manager_attr k name <> Ok NotImplemented.
Proof.
  unfold manager_attr. intros H.
  destruct (existsb (String.eqb name) (own_methods k)) eqn:E; [discriminate|].
  destruct (existsb (String.eqb name) common_methods); [discriminate|].
  destruct (existsb (String.eqb name) abstract_methods) eqn:Ea; [|discriminate].
  assert (X : existsb (String.eqb name) (own_methods k) = true); [|congruence].
  apply existsb_exists in Ea. destruct Ea as (x & Hx & Ex). apply String.eqb_eq in Ex. subst x. cbn in Hx.
  clear - Hx. repeat (destruct Hx as [<-|Hx]; [destruct k; reflexivity|]). destruct Hx.
Qed.

(** [helper name]: not for users, by the underscore or as it is only called by managers. *)
Definition helper (name : string) : bool :=
  match name with
  | String c _ => Ascii.eqb c (Ascii.ascii_of_nat 95)
  | EmptyString => false
  end || existsb (String.eqb name) ["get_queryset"; "get_sorted_pos_queryset"; "update_parent_counts_after_move"; "update_move_to_child_vars"]%string.

(** Every other method of a manager can be called on nodes as well. *)
Theorem C77_all k name b : manager_attr k name = Ok b -> helper name = false -> exists b', old_call k name = Ok b' /\ has_body (Ok b') = true.
Proof.
  intros H N.
  assert (I : In name (own_methods k ++ common_methods)).
  { unfold manager_attr in H. destruct (existsb _ (own_methods k)) eqn:E1; [|destruct (existsb _ common_methods) eqn:E2; [|]].
    - apply in_or_app. left. apply existsb_exists in E1. destruct E1 as (x & Hx & Ex). apply String.eqb_eq in Ex. subst. auto.
    - apply in_or_app. right. apply existsb_exists in E2. destruct E2 as (x & Hx & Ex). apply String.eqb_eq in Ex. subst. auto.
    - exfalso. apply (C77_implemented k name). unfold manager_attr. rewrite E1, E2. destruct (existsb _ abstract_methods); [auto|discriminate]. }
  clear H. destruct k; cbn in I;
    repeat (destruct I as [<-|I]; [first [solve [eexists; split; reflexivity] | discriminate N]|]); destruct I.
Qed.

Example C77_example : old_call NS "get_descendant_count" = Ok (OfTree, true) /\ old_call MP "get_descendant_count" = Ok (OfBase, true) /\
  old_call MP "fix_tree" = Ok (OfTree, false) /\ old_call LT "find_problems" = Err AttributeError /\ old_call AL "is_leaf" = Ok (OfBase, true).
Proof. repeat split; reflexivity. Qed.

(** ** C78: the kind of tree in the admin *)

(** The four kinds of trees. *)
Definition kinds : list string := ["MP_Node"; "NS_Node"; "AL_Node"; "LT_Node"]%string.

Theorem C78_partial mro name : In name kinds -> In name mro -> (forall other, In other kinds -> In other mro -> other = name) ->
  treebeard_base mro = Ok name.
Proof.
  change kinds with treebeard_classes. intros H Hm U. unfold treebeard_base.
  destruct (find (fun c => existsb (String.eqb c) mro) treebeard_classes) as [c|] eqn:E.
  - apply find_some in E. destruct E as [Ec Ex]. apply existsb_exists in Ex. destruct Ex as (x & Hx & Ex). apply String.eqb_eq in Ex. subst x. rewrite (U c); auto.
  - exfalso. assert (X := find_none _ _ E name H). cbn in X. assert (Y : existsb (String.eqb name) mro = true); [|congruence].
    apply existsb_exists. exists name. split; auto. apply String.eqb_refl.
Qed.

Theorem C78_none mro : treebeard_base mro = Err ValueError <-> forall name, In name kinds -> ~ In name mro.
Proof.
  change kinds with treebeard_classes.
  unfold treebeard_base. destruct (find _ treebeard_classes) as [c|] eqn:E.
  - split; [discriminate|]. intros H. apply find_some in E. destruct E as [Ec Ex]. apply existsb_exists in Ex. destruct Ex as (x & Hx & Ex). apply String.eqb_eq in Ex. subst x. destruct (H c Ec Hx).
  - split; auto. intros _ name Hn Hm. assert (X := find_none _ _ E name Hn). cbn in X. assert (Y : existsb (String.eqb name) mro = true); [|congruence].
    apply existsb_exists. exists name. split; auto. apply String.eqb_refl.
Qed.

(** The class is found by its name: a model of one kind that is called like the class of another is
    taken for that kind. *)
Theorem C78_refuted : exists user, treebeard_base (user :: ["LT_Node"; "Node"; "Model"; "object"]%string) = Ok user /\ user <> "LT_Node"%string.
Proof. exists "AL_Node"%string. split; [reflexivity|discriminate]. Qed.

Example C78_example : treebeard_base ["Page"; "NS_Node"; "Node"; "Model"; "object"]%string = Ok "NS_Node"%string /\
  treebeard_base ["Page"; "Model"; "object"]%string = Err ValueError.
Proof. split; reflexivity. Qed.

Print Assumptions C75_class_partial.
Print Assumptions C75_all_nodes.
Print Assumptions C75_proxy_refuted.
Print Assumptions C75_al_parent_partial.
Print Assumptions C75_al_inherited_refuted.
Print Assumptions C75_al_proxy_refuted.
Print Assumptions C76_mp_partial.
Print Assumptions C76_ns_partial.
Print Assumptions C76_al.
Print Assumptions C76_check_refuted.
Print Assumptions C76_check.
Print Assumptions C76_first.
Print Assumptions C76_inherits.
Print Assumptions C76_named.
Print Assumptions C77_moved.
Print Assumptions C77_apart.
Print Assumptions C77_refuted.
Print Assumptions C77_implemented.
Print Assumptions C77_all.
Print Assumptions C76_lt_partial.
Print Assumptions C78_partial.
Print Assumptions C78_none.
Print Assumptions C78_refuted.
