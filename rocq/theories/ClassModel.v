(** Model of what Treebeard takes from the model class: the class of the nodes that managers
    return (models.py), the manager that deletes (models.py), the system check E001 (models.py),
    the methods that have moved to the managers (models.py, deprecation.py), and the kind of tree
    in the admin (templatetags/admin_tree.py).

    Simplifications: a model class has one base that is a model (mixins are left out). *)
From Coq Require Import String List Arith Bool.
From Verif Require Import Prelude.
From Verif Require MPModel NSModel ALModel LTModel.
Import ListNotations.
Local Open Scope list_scope.

(** ** The class of the nodes *)

(** A class is abstract, has a table of its own, or is a proxy. /repo/treebeard/models.py:181-203 *)
Inductive decl := Abstract | Table | Proxy.

(** A model class: how it and its bases are declared, up to Node, which is last. The classes on
    one line of descent are the tails of one list, so the length tells them apart.
    /repo/treebeard/models.py:18, 181-203 *)
Definition mclass := list decl.

(** _meta.get_field(TREEBEARD_IDENTIFYING_FIELD).model: the fields of abstract classes belong to
    the first class with a table that inherits them. /repo/treebeard/models.py:199 *)
Fixpoint field_model (c : mclass) : option mclass :=
  match c with
  | [] => None
  | d :: b => match field_model b with
              | Some x => Some x
              | None => match d with Table => Some c | _ => None end
              end
  end.

(** The nearest class that is not abstract. /repo/treebeard/models.py:200 (Django's ModelBase) *)
Fixpoint first_model (c : mclass) : option mclass :=
  match c with
  | [] => None
  | Abstract :: b => first_model b
  | _ => Some c
  end.

(** _meta.proxy_for_model. /repo/treebeard/models.py:200, al_tree.py:240 *)
Definition proxy_for (c : mclass) : option mclass :=
  match c with Proxy :: b => first_model b | _ => None end.

(** NodeManager.tree_model. /repo/treebeard/models.py:181-203 *)
Definition tree_model (c : mclass) : option mclass :=
  match field_model c with
  | None => None
  | Some base =>
      match proxy_for c with
      | Some p => if length p =? length base then Some c else Some base
      | None => Some base
      end
  end.

(** The class whose table has the rows of the class. /repo/treebeard/models.py:181-203 *)
Fixpoint concrete (c : mclass) : option mclass :=
  match c with
  | [] => None
  | Table :: _ => Some c
  | _ :: b => concrete b
  end.

(** cls.objects.get(pk=k): [has] tells which tables have a row for [k]; the object has the class
    that was asked. /repo/treebeard/al_tree.py:248, mp_tree.py:934 *)
Definition get_object (has : mclass -> nat -> bool) (c : mclass) (k : nat) : res (mclass * nat) :=
  match concrete c with
  | Some T => if has T k then Ok (c, k) else Err DoesNotExist
  | None => Err DoesNotExist
  end.

(** The parent [k] of a node, in trees other than adjacency lists; children, siblings and roots
    are fetched from tree_model as well. /repo/treebeard/mp_tree.py:934, ns_tree.py:542-549,
    ltree/__init__.py:499, al_tree.py:155-157, 194-205 *)
Definition by_tree_model (has : mclass -> nat -> bool) (c : mclass) (k : nat) : res (mclass * nat) :=
  match tree_model c with
  | Some m => get_object has m k
  | None => Err DoesNotExist
  end.

(** AL_NodeManager.get_parent of a node with parent [k]; node.parent has the class of the field.
    /repo/treebeard/al_tree.py:238-250 *)
Definition al_get_parent (has : mclass -> nat -> bool) (c : mclass) (k : nat) : res (mclass * nat) :=
  match proxy_for c with
  | Some _ => get_object has c k
  | None => match field_model c with Some base => get_object has base k | None => Err DoesNotExist end
  end.

(** ** Managers *)

(** A subclass of the manager of the tree (_DEFAULT_TREEBEARD_MANAGER), or another manager.
    /repo/treebeard/models.py:116-119 *)
Inductive manager := TreeManager | OtherManager.

(** The managers that one class defines, in that order, and Meta.default_manager_name.
    /repo/treebeard/models.py:117, mp_tree.py:1038 *)
Record mlevel := mkLevel { lv_managers : list (string * manager); lv_default : option string }.

(** The last levels of every model: MP_Node, NS_Node, AL_Node or LT_Node, and Node.
    /repo/treebeard/mp_tree.py:1038, ns_tree.py:607, al_tree.py:293, ltree/__init__.py:547,
    models.py:18-56 *)
Definition tree_levels : list mlevel := [mkLevel [("objects"%string, TreeManager)] None; mkLevel [] None].

(** _meta.managers of Django: by depth, then in the order of definition; a name counts once.
    /repo/treebeard/models.py:117 *)
Fixpoint managers (seen : list string) (l : list (string * manager)) : list (string * manager) :=
  match l with
  | [] => []
  | (n, m) :: l => if existsb (String.eqb n) seen then managers seen l else (n, m) :: managers (n :: seen) l
  end.
(** The managers of a class, nearest first. /repo/treebeard/models.py:117 *)
Definition all_managers (c : list mlevel) : list (string * manager) := managers [] (flat_map lv_managers c).

(** A manager by its name. /repo/treebeard/models.py:38-50, 100 (cls.objects) *)
Definition by_name (n : string) (l : list (string * manager)) : option manager :=
  option_map snd (find (fun x => String.eqb (fst x) n) l).

(** cls._default_manager of Django. /repo/treebeard/models.py:117 *)
Definition default_manager (c : list mlevel) : res manager :=
  let name := match c with
              | [] => None
              | l :: b => match lv_default l, lv_managers l with
                          | Some n, _ => Some n
                          | None, [] => match b with p :: _ => lv_default p | [] => None end
                          | None, _ => None
                          end
              end in
  match name with
  | Some n => match by_name n (all_managers c) with Some m => Ok m | None => Err ValueError end
  | None => match all_managers c with (_, m) :: _ => Ok m | [] => Err AttributeError end
  end.

(** The errors of Node.check: treebeard.E001, or none. /repo/treebeard/models.py:114-130 *)
Definition check (c : list mlevel) : res (list string) :=
  do m <- default_manager c;
  match m with TreeManager => Ok [] | OtherManager => Ok ["treebeard.E001"%string] end.

(** cls.objects. /repo/treebeard/models.py:38-50, 66, 76, 86, 95, 100, deprecation.py:22, 40 *)
Definition objects (c : list mlevel) : res manager :=
  match by_name "objects" (all_managers c) with Some m => Ok m | None => Err AttributeError end.

(** Node.delete with the QuerySet of the manager; that of Django deletes the row itself, as no
    foreign key refers to it. /repo/treebeard/models.py:97-100, mp_tree.py:95-97, 32-86 *)
Definition mp_node_delete (cfg : MPModel.mp_cfg) (c : list mlevel) (t : MPModel.mp_table) (n : MPModel.mprow) : res MPModel.mp_table :=
  do m <- objects c;
  match m with
  | TreeManager => Ok (MPModel.delete_node cfg t n)
  | OtherManager => Ok (filter (fun r => negb (MPModel.m_pk r =? MPModel.m_pk n)) t)
  end.
(** /repo/treebeard/models.py:97-100, ns_tree.py:82-84, 30-76 *)
Definition ns_node_delete (c : list mlevel) (db : NSModel.ns_db) (n : NSModel.nsrow) : res NSModel.ns_table :=
  do m <- objects c;
  match m with
  | TreeManager => Ok (NSModel.ns_rows (NSModel.delete_node db n))
  | OtherManager => Ok (filter (fun r => negb (NSModel.n_pk r =? NSModel.n_pk n)) (NSModel.ns_rows db))
  end.
(** The foreign key "parent" cascades with every manager.
    /repo/treebeard/models.py:97-100, al_tree.py:16-22 *)
Definition al_node_delete (c : list mlevel) (t : ALModel.al_table) (n : ALModel.alrow) : res ALModel.al_table :=
  do m <- objects c; Ok (ALModel.delete_node t n).

(** /repo/treebeard/models.py:97-100, ltree/__init__.py:134-136, 84-131 *)
Definition lt_node_delete (c : list mlevel) (db : LTModel.lt_db) (n : LTModel.ltrow) : res LTModel.lt_table :=
  do m <- objects c;
  match m with
  | TreeManager => Ok (LTModel.lt_rows (LTModel.delete db n))
  | OtherManager => Ok (filter (fun r => negb (LTModel.l_pk r =? LTModel.l_pk n)) (LTModel.lt_rows db))
  end.

(** ** Methods that have moved to the managers *)

(** /repo/treebeard/models.py:139-151 *)
Definition moved_classmethods : list string :=
  ["load_bulk"; "dump_bulk"; "get_root_nodes"; "get_first_root_node"; "get_last_root_node"; "find_problems"; "fix_tree";
   "get_tree"; "get_descendants_group_count"; "get_annotated_list_qs"; "get_annotated_list"]%string.
(** /repo/treebeard/models.py:156-171 *)
Definition moved_methods : list string :=
  ["get_children"; "get_children_count"; "get_siblings"; "get_descendants"; "get_descendant_count"; "get_first_child";
   "get_last_child"; "get_first_sibling"; "get_last_sibling"; "get_prev_sibling"; "get_next_sibling"; "get_root";
   "get_parent"; "get_ancestors"]%string.

(** The four kinds of trees. /repo/treebeard/templatetags/admin_tree.py:8 *)
Inductive kind := MP | NS | AL | LT.

(** Methods of NodeManager that raise NotImplementedError.
    /repo/treebeard/models.py:205-347, 489-535, 603-624 *)
Definition abstract_methods : list string :=
  ["get_tree"; "add_root"; "add_child"; "add_sibling"; "move"; "get_root_nodes"; "dump_bulk"; "get_children"; "get_siblings";
   "get_descendants"; "get_root"; "get_parent"; "get_ancestors"]%string.
(** The other methods of NodeManager. /repo/treebeard/models.py:349-487, 512-514, 537-601, 626-693 *)
Definition common_methods : list string :=
  ["get_first_root_node"; "get_last_root_node"; "get_descendants_group_count"; "get_annotated_list_qs"; "get_annotated_list";
   "load_bulk"; "get_children_count"; "get_descendant_count"; "get_first_child"; "get_last_child"; "get_first_sibling";
   "get_last_sibling"; "get_prev_sibling"; "get_next_sibling"; "_prepare_pos_var"; "_prepare_pos_var_for_add_sibling";
   "_prepare_pos_var_for_move"; "get_sorted_pos_queryset"]%string.
(** Methods of MP_NodeManager, NS_NodeManager, AL_NodeManager and LT_NodeManager.
    /repo/treebeard/mp_tree.py:92-961, ns_tree.py:79-590, al_tree.py:13-287,
    ltree/__init__.py:134-534 *)
Definition own_methods (k : kind) : list string :=
  match k with
  | MP => ["get_queryset"; "get_tree"; "fix_tree"; "_rewrite_node_path"; "_fix_numchild"; "find_problems"; "add_root"; "add_child";
           "add_sibling"; "move"; "update_parent_counts_after_move"; "update_move_to_child_vars"; "get_root_nodes";
           "get_descendants_group_count"; "load_bulk"; "dump_bulk"; "_increment_numchild"; "_decrement_numchild";
           "_reorder_nodes_before_add_or_move"; "_set_newpath_in_branches"; "get_children"; "get_children_count"; "get_siblings";
           "get_descendants"; "get_root"; "get_parent"; "get_ancestors"; "get_next_sibling"; "get_prev_sibling"]
  | NS => ["get_queryset"; "get_tree"; "add_root"; "add_child"; "add_sibling"; "move"; "get_root_nodes"; "dump_bulk"; "find_problems";
           "get_children"; "get_siblings"; "get_descendant_count"; "get_root"; "get_parent"; "get_ancestors"; "get_descendants";
           "_alter_gap"; "_move_tree_right"; "_close_gap"]
  | AL => ["get_queryset"; "get_tree"; "_get_tree_recursively"; "add_root"; "add_child"; "add_sibling"; "move"; "get_root_nodes";
           "dump_bulk"; "get_children"; "get_siblings"; "get_descendants"; "get_descendant_count"; "get_prev_sibling";
           "get_next_sibling"; "get_root"; "get_parent"; "get_ancestors"; "_is_target_pos_the_last_sibling";
           "_make_hole_and_get_sibling_order"; "_get_new_sibling_order"]
  | LT => ["get_queryset"; "get_tree"; "add_root"; "add_child"; "add_sibling"; "move"; "get_root_nodes"; "get_descendants_group_count";
           "dump_bulk"; "_get_new_path"; "_move_subtree_right"; "get_children"; "get_siblings"; "get_root"; "get_parent";
           "get_ancestors"; "get_next_sibling"; "get_descendants"; "get_prev_sibling"]
  end%string.

(** What a method of a class is: one of the tree, one of the common classes, one that raises
    NotImplementedError, or the injected one that calls the manager.
    /repo/treebeard/models.py:137-176 *)
Inductive body := OfTree | OfBase | NotImplemented | Forwards.

(** getattr(manager, name). /repo/treebeard/deprecation.py:22, 40 *)
Definition manager_attr (k : kind) (name : string) : res body :=
  if existsb (String.eqb name) (own_methods k) then Ok OfTree
  else if existsb (String.eqb name) common_methods then Ok OfBase
  else if existsb (String.eqb name) abstract_methods then Ok NotImplemented
  else Err AttributeError.

(** Methods of Node itself; injection replaces methods of the same name.
    /repo/treebeard/models.py:28-130, 137-176 *)
Definition node_methods : list string :=
  ["get_depth"; "is_root"; "is_leaf"; "is_sibling_of"; "is_child_of"; "is_descendant_of"; "add_root"; "add_child"; "add_sibling";
   "move"; "delete"; "_clear_cached_attributes"; "refresh_from_db"; "check"]%string.
(** Methods of MP_Node, NS_Node, AL_Node and LT_Node. /repo/treebeard/mp_tree.py:1024-1144,
    ns_tree.py:593-633, al_tree.py:290-348, ltree/__init__.py:537-592 *)
Definition tree_node_methods (k : kind) : list string :=
  match k with
  | MP => ["_int2str"; "_str2int"; "numconv_obj"; "get_depth"; "is_sibling_of"; "is_child_of"; "is_descendant_of"; "is_root"; "is_leaf";
           "_get_basepath"; "_get_path"; "_inc_path"; "_get_lastpos_in_path"; "_get_parent_path_from_path"; "_get_children_path_interval"]
  | NS => ["get_depth"; "is_leaf"; "is_root"; "is_descendant_of"]
  | AL => ["get_depth"; "is_root"; "is_sibling_of"; "is_child_of"; "is_descendant_of"]
  | LT => ["get_depth"; "is_sibling_of"; "is_child_of"; "is_descendant_of"; "is_root"; "is_leaf"]
  end%string.
(** getattr(node, name). /repo/treebeard/models.py:137-176 *)
Definition node_attr (k : kind) (name : string) : res body :=
  if existsb (String.eqb name) (tree_node_methods k) then Ok OfTree
  else if existsb (String.eqb name) (moved_classmethods ++ moved_methods) then Ok Forwards
  else if existsb (String.eqb name) node_methods then Ok OfBase
  else Err AttributeError.

(** The method that runs for node.name(...), and whether the node is its first argument: the
    classmethods do not pass it. /repo/treebeard/deprecation.py:8-48 *)
Definition old_call (k : kind) (name : string) : res (body * bool) :=
  do b <- node_attr k name;
  match b with
  | Forwards => do m <- manager_attr k name; Ok (m, existsb (String.eqb name) moved_methods)
  | b => Ok (b, true)
  end.

(** ** The kind of tree in the admin *)

(** /repo/treebeard/templatetags/admin_tree.py:8 *)
Definition treebeard_classes : list string := ["MP_Node"; "NS_Node"; "AL_Node"; "LT_Node"]%string.
(** _get_treebeard_base, given the names of the classes in model.mro(); None is the ValueError
    of line 46. /repo/treebeard/templatetags/admin_tree.py:11-21, 46 *)
Definition treebeard_base (mro : list string) : res string :=
  match find (fun c => existsb (String.eqb c) mro) treebeard_classes with Some c => Ok c | None => Err ValueError end.
