(** Model of the annotated lists of /repo/treebeard/models.py:389-436 and of the template
    in /repo/docs/source/api.rst:378-390 that is fed with them. *)
From Coq Require Import List Arith Bool ZArith.
From Verif Require Import Prelude Forest.
From Verif Require MPModel NSModel ALModel LTModel.
Import ListNotations.
Local Open Scope Z_scope.

(** The info dictionary: keys open (as a truth value), close and level.
    /repo/treebeard/models.py:407 *)
Record info := mkInfo { i_open : bool; i_close : list nat; i_level : Z }.

Section Generic.
Variable A : Type.

(** list(range(0, k)). /repo/treebeard/models.py:406, 416 *)
Definition range (k : Z) : list nat := seq 0 (Z.to_nat k).

(** [info["close"] = list(range(0, k))] on the dictionary of the entry appended last. The
    results are kept in reverse; before the first entry the dictionary is not in the results.
    /repo/treebeard/models.py:406, 416 *)
Definition set_close (k : Z) (acc : list (A * info)) : list (A * info) :=
  match acc with
  | [] => []
  | (a, i) :: acc => (a, mkInfo (i_open i) (range k) (i_level i)) :: acc
  end.

(** /repo/treebeard/models.py:399-416 the loop; every node comes with its [get_depth()].
    [start] and [prev] are start_depth and prev_depth.
    - line 403: [if start_depth is None: start_depth = depth]
    - line 405: [open = depth and (prev_depth is None or depth > prev_depth)]
    - lines 406-407: close what the new depth leaves *)
Fixpoint ann_loop (qs : list (A * Z)) (start prev : option Z) (acc : list (A * info))
  : option Z * option Z * list (A * info) :=
  match qs with
  | [] => (start, prev, acc)
  | (node, depth) :: qs =>
      let start := match start with None => depth | Some s => s end in
      let open := negb (depth =? 0) && match prev with None => true | Some p => p <? depth end in
      let acc := match prev with
                 | Some p => if depth <? p then set_close (p - depth) acc else acc
                 | None => acc
                 end in
      ann_loop qs (Some start) (Some depth) ((node, mkInfo open [] (depth - start)) :: acc)
  end.

(** /repo/treebeard/models.py:389-417 get_annotated_list_qs *)
Definition get_annotated_list_qs (qs : list (A * Z)) : list (A * info) :=
  match ann_loop qs None None [] with
  | (Some s, Some p, acc) => rev (if negb (s =? 0) && (0 <? s) then set_close (p - s + 1) acc else acc)
  | (_, _, acc) => rev acc
  end.

(** What the template emits. /repo/docs/source/api.rst:378-390 *)
Inductive tok := Ul | UlEnd | Li | LiEnd | Txt (a : A).

(** /repo/docs/source/api.rst:378-390, one turn of the outer loop *)
Definition entry (x : A * info) : list tok :=
  (if i_open (snd x) then [Ul; Li] else [LiEnd; Li]) ++ [Txt (fst x)] ++
  flat_map (fun _ => [LiEnd; UlEnd]) (i_close (snd x)).

(** /repo/docs/source/api.rst:378-390: the page for a whole annotated list *)
Definition page (l : list (A * info)) : list tok := flat_map entry l.

End Generic.
Arguments Ul {A}. Arguments UlEnd {A}. Arguments Li {A}. Arguments LiEnd {A}.
Arguments Txt {A} _.
Arguments get_annotated_list_qs {A} _.
Arguments ann_loop {A} _ _ _ _.
Arguments set_close {A} _ _.
Arguments page {A} _.
Arguments entry {A} _.

(** [if max_depth: qs = qs.filter(depth__lte=max_depth)], /repo/treebeard/models.py:434-435,
    for the implementations with a depth column. *)
Definition depth_filter {A} (max_depth : option Z) (qs : list (A * Z)) : list (A * Z) :=
  match max_depth with
  | Some m => if m =? 0 then qs else filter (fun x => snd x <=? m) qs
  | None => qs
  end.

(** /repo/treebeard/models.py:419-436 get_annotated_list for materialized paths
    (get_depth is the column depth, mp_tree.py:1060-1062) *)
Definition mp_annotated_list (t : list MPModel.mprow) (parent : option MPModel.mprow) (max_depth : option Z)
  : list (MPModel.mprow * info) :=
  get_annotated_list_qs (depth_filter max_depth
    (map (fun r => (r, Z.of_nat (MPModel.m_depth r))) (MPModel.get_tree t parent None))).

(** ... for nested sets (get_depth is the column depth, ns_tree.py:614-616) *)
Definition ns_annotated_list (t : list NSModel.nsrow) (parent : option NSModel.nsrow) (max_depth : option Z)
  : list (NSModel.nsrow * info) :=
  get_annotated_list_qs (depth_filter max_depth
    (map (fun r => (r, NSModel.n_depth r)) (NSModel.get_tree t parent None))).

(** Calling get_depth on every listed object, in order. /repo/treebeard/models.py:400-401 with
    /repo/treebeard/al_tree.py:305-330 *)
Fixpoint al_depths (t : list ALModel.alrow) (l : list ALModel.alobj) : res (list (ALModel.alobj * Z)) :=
  match l with
  | [] => Ok []
  | n :: l => do '(d, n) <- ALModel.get_depth t n false; do l <- al_depths t l; Ok ((n, d) :: l)
  end.

(** ... for adjacency lists: get_tree returns a list, which has no method filter.
    /repo/treebeard/models.py:419-437 with /repo/treebeard/al_tree.py:24-45 *)
Definition al_annotated_list o (t : list ALModel.alrow) (parent : option ALModel.alobj) (max_depth : option Z)
  : res (list (ALModel.alobj * info)) :=
  do qs <- ALModel.get_tree o t parent None;
  match max_depth with
  | Some m => if m =? 0 then do l <- al_depths t qs; Ok (get_annotated_list_qs l) else Err AttributeError
  | None => do l <- al_depths t qs; Ok (get_annotated_list_qs l)
  end.

(** ... for ltree: the model has no field depth to filter on; get_depth is the number of labels,
    ltree/__init__.py:551-553. *)
Definition lt_annotated_list (t : list LTModel.ltrow) (parent : option LTModel.ltrow) (max_depth : option Z)
  : res (list (LTModel.ltrow * info)) :=
  let qs := map (fun r => (r, Z.of_nat (LTModel.get_depth r))) (LTModel.get_tree t parent None) in
  match max_depth with
  | Some m => if m =? 0 then Ok (get_annotated_list_qs qs) else Err FieldError
  | None => Ok (get_annotated_list_qs qs)
  end.
