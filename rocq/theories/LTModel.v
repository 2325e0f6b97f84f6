(** Model of /repo/treebeard/ltree/__init__.py: trees on the ltree type of PostgreSQL.

    A label is a list of indexes into the alphabet 0-9A-Z (whose ASCII order is the order
    of the indexes); an index of 36 or more stands for a character outside of the alphabet.
    A path is a list of labels.  ltree compares paths label by label and labels byte by
    byte, and a shorter one comes first.

    Simplifications: the limit on the number of labels of an ltree is left out (the limit
    on the length of a label is modelled); the deferred UNIQUE(path) constraint is checked
    at the end of every atomic call; characters outside of the alphabet all sort after it. *)
From Coq Require Import String List Arith Bool ZArith.
From Verif Require Import Prelude Forest PathTab CommonModel.
Import ListNotations.

Notation label := (list nat).
Notation lpath := (list (list nat)).

(** string.digits and string.ascii_uppercase as indexes. /repo/treebeard/ltree/__init__.py:45 *)
Definition digits10 : list nat := seq 0 10.
(** string.ascii_uppercase, /repo/treebeard/ltree/__init__.py:45 *)
Definition upper26 : list nat := seq 10 26.
(** The first letter, /repo/treebeard/ltree/__init__.py:45-47 *)
Definition chA : nat := 10.

(** Python str comparison, and the comparison of ltree values.
    /repo/treebeard/ltree/__init__.py:50, 69-73 *)
Definition lblt : label -> label -> bool := llt Nat.ltb.
(** Equality of labels, /repo/treebeard/ltree/__init__.py:50, 71 *)
Definition lbeq : label -> label -> bool := leq Nat.ltb.
(** [label <= after], /repo/treebeard/ltree/__init__.py:50, 69 *)
Definition lblt_eq (a b : label) : bool := negb (lblt b a).
(** The order of the column path, /repo/treebeard/ltree/__init__.py:537-549 *)
Definition plt : lpath -> lpath -> bool := llt lblt.
(** [path=...], /repo/treebeard/ltree/__init__.py:492-499 *)
Definition peq : lpath -> lpath -> bool := leq lblt.
(** [path <@ p]: p is an ancestor of (or equal to) path.
    /repo/treebeard/ltree/fields.py:113-123 *)
Definition ppre : lpath -> lpath -> bool := prefixb lblt.

(** node_order_by, and the length limit of a label (255, or 1000 since PostgreSQL 16).
    /repo/treebeard/ltree/__init__.py:537-549 *)
Record lt_cfg := mkLTCfg { lt_order : ordering; label_max : nat }.

(** /repo/treebeard/ltree/__init__.py:537-541 and the user's columns. *)
Record ltrow := mkLT { l_pk : nat; l_path : lpath; l_data : fields }.
Notation lt_table := (list ltrow).

(** The signals of /repo/treebeard/ltree/__init__.py:22-24. *)
Inductive lt_signal :=
| MovedRight (p : lpath)
| Moved (old new : lpath)
| Deleted (l : list lpath).

(** The table and the signals of /repo/treebeard/ltree/__init__.py:22-24 *)
Record lt_db := mkLTDB { lt_rows : lt_table; lt_sig : list lt_signal }.

(** ** Labels *)

(** [x or None]: the empty string is falsy. /repo/treebeard/ltree/__init__.py:47-50 *)
Definition falsy (x : option label) : option label :=
  match x with Some [] => None | _ => x end.

(** [after or char_choices[0]], /repo/treebeard/ltree/__init__.py:47 *)
Definition or_else {A} (x : option A) (d : A) : A := match x with Some a => a | None => d end.

(** Using an attribute of an object that may be None. /repo/treebeard/ltree/__init__.py:222 *)
Definition opt_res {A} (x : option A) (e : exn) : res A := match x with Some a => Ok a | None => Err e end.

(** The outcome of one candidate of the innermost loop. /repo/treebeard/ltree/__init__.py:67-75 *)
Inductive tried := Next | Break | Found (l : label).

(** /repo/treebeard/ltree/__init__.py:67-74 *)
Definition try_label (skip : list label) (before after : option label) (l : label) : tried :=
  if match after with Some a => lblt_eq l a | None => false end then Next
  else if existsb (lbeq l) skip then Next
  else if match before with Some b => lblt_eq b l | None => false end then Break
  else Found l.

(** The loop over itertools.product of the character lists, which runs lazily and with the
    last position varying fastest: /repo/treebeard/ltree/__init__.py:65-74. *)
Fixpoint loop_chars (body : nat -> tried) (cs : list nat) : tried :=
  match cs with
  | [] => Next
  | c :: cs => match body c with Next => loop_chars body cs | r => r end
  end.
(** itertools.product and the loop over it, /repo/treebeard/ltree/__init__.py:66-75 *)
Fixpoint loop_product (test : label -> tried) (lists : list (list nat)) (acc : label) : tried :=
  match lists with
  | [] => test acc
  | cs :: ls => loop_chars (fun c => loop_product test ls (acc ++ [c])) cs
  end.

(** The loop over the lengths, /repo/treebeard/ltree/__init__.py:64: [n] more lengths from [i]. *)
Fixpoint loop_len (test : label -> tried) (lists : list (list nat)) (i n : nat) : option label :=
  match n with
  | O => None
  | S n => match loop_product test (firstn (S i) lists) [] with
           | Found l => Some l
           | _ => loop_len test lists (S i) n
           end
  end.

(** /repo/treebeard/ltree/__init__.py:57-62 *)
Fixpoint common (a b : label) : nat :=
  match a, b with
  | x :: a, y :: b => if x =? y then S (common a b) else O
  | _, _ => O
  end.

(** char_choices[char_choices.index(char):]. /repo/treebeard/ltree/__init__.py:55 *)
Fixpoint chars_from (choices : list nat) (c : nat) : option (list nat) :=
  match choices with
  | [] => None
  | x :: r => if x =? c then Some choices else chars_from r c
  end.
(** /repo/treebeard/ltree/__init__.py:55-56 *)
Fixpoint char_lists (choices : list nat) (start : label) : option (list (list nat)) :=
  match start with
  | [] => Some [choices]
  | c :: s => match chars_from choices c, char_lists choices s with
              | Some l, Some r => Some (l :: r)
              | _, _ => None
              end
  end.

(** /repo/treebeard/ltree/__init__.py:30-78 *)
Definition generate_label (skip : list label) (before after : option label) : res label :=
  let before := falsy before in
  let after := falsy after in
  let choices := match before, after with None, None => upper26 | _, _ => digits10 ++ upper26 end in
  let start := or_else after [hd 0 choices] in
  if match before with Some b => lblt_eq b start || lbeq b (start ++ [0]) | None => false end
  then Err InvalidLabelConstraints
  else
    match char_lists choices start with
    | None => Err ValueError
    | Some lists =>
        let start_from := common (or_else before []) (or_else after []) in
        match loop_len (try_label skip before after) lists start_from (length lists - start_from) with
        | Some l => Ok l
        | None => Err ValueError
        end
    end.

(** path[-1]. /repo/treebeard/ltree/__init__.py:87, 404-432 *)
Definition last_label (p : lpath) : label := last p [].

(** /repo/treebeard/ltree/__init__.py:81-89; [skip] is the list of sibling paths. *)
Definition generate_path (prefix : lpath) (before after : option label) (skip : list lpath) : res lpath :=
  do l <- generate_label (map last_label skip) before after;
  Ok (prefix ++ [l]).

(** ** Queries *)
Section LT.
Variable cfg : lt_cfg.
Notation order_by := (lt_order cfg).

(** [if self.model.node_order_by], /repo/treebeard/ltree/__init__.py:164-229 *)
Definition is_sorted : bool := match order_by with [] => false | _ => true end.

(** ORDER BY path: /repo/treebeard/ltree/__init__.py:137-139 *)
Definition order_path (l : lt_table) : lt_table := isort (le_key l_path plt) l.

(** path[:-1]. /repo/treebeard/ltree/__init__.py:481-499 *)
Definition parent_path (p : lpath) : lpath := removelast p.

(** /repo/treebeard/ltree/__init__.py:336-338 *)
Definition get_root_nodes (t : lt_table) : lt_table :=
  order_path (filter (fun r => length (l_path r) =? 1) t).

(** /repo/treebeard/ltree/__init__.py:477-479 *)
Definition get_children (t : lt_table) (n : ltrow) : lt_table :=
  order_path (filter (fun r => ppre (l_path n) (l_path r) && (length (l_path r) =? length (l_path n) + 1)) t).

(** /repo/treebeard/ltree/__init__.py:481-486 *)
Definition get_siblings (t : lt_table) (n : ltrow) : lt_table :=
  order_path (filter (fun r => ppre (parent_path (l_path n)) (l_path r) && (length (l_path r) =? length (l_path n))) t).

(** /repo/treebeard/models.py:349-363, 507-509, 545-577 *)
Definition get_first_root_node t := hd_error (get_root_nodes t).
(** /repo/treebeard/models.py:357-363 *)
Definition get_last_root_node t := last_opt (get_root_nodes t).
(** /repo/treebeard/models.py:512-514 *)
Definition get_children_count t n := length (get_children t n).
(** /repo/treebeard/models.py:545-551 *)
Definition get_first_child t n := hd_error (get_children t n).
(** /repo/treebeard/models.py:553-559 *)
Definition get_last_child t n := last_opt (get_children t n).
(** /repo/treebeard/models.py:561-568 *)
Definition get_first_sibling t n := hd_error (get_siblings t n).
(** /repo/treebeard/models.py:570-577 *)
Definition get_last_sibling t n := last_opt (get_siblings t n).

(** /repo/treebeard/ltree/__init__.py:509-514, 529-534 *)
Definition get_next_sibling (t : lt_table) (n : ltrow) : option ltrow :=
  hd_error (filter (fun r => plt (l_path n) (l_path r)) (get_siblings t n)).
(** /repo/treebeard/ltree/__init__.py:529-534 *)
Definition get_prev_sibling (t : lt_table) (n : ltrow) : option ltrow :=
  last_opt (filter (fun r => plt (l_path r) (l_path n)) (get_siblings t n)).

(** Model.objects.get(path=...), Model.objects.get(pk=...).
    /repo/treebeard/ltree/__init__.py:488-499 *)
Definition get_by_path (t : lt_table) (p : lpath) : res ltrow :=
  match filter (fun r => peq (l_path r) p) t with r :: _ => Ok r | [] => Err DoesNotExist end.
(** refresh_from_db, /repo/treebeard/models.py:110-112 *)
Definition get_by_pk (t : lt_table) (k : nat) : res ltrow :=
  match filter (fun r => l_pk r =? k) t with r :: _ => Ok r | [] => Err DoesNotExist end.

(** /repo/treebeard/ltree/__init__.py:488-490; a path is never empty. *)
Definition get_root (t : lt_table) (n : ltrow) : res ltrow :=
  match l_path n with [] => Err IndexError | x :: _ => get_by_path t [x] end.

(** /repo/treebeard/ltree/__init__.py:492-499 *)
Definition get_parent (t : lt_table) (n : ltrow) : res (option ltrow) :=
  if length (l_path n) =? 1 then Ok None
  else do r <- get_by_path t (parent_path (l_path n)); Ok (Some r).

(** /repo/treebeard/ltree/__init__.py:501-506 *)
Definition get_ancestors (t : lt_table) (n : ltrow) : lt_table :=
  order_path (filter (fun r => ppre (l_path r) (l_path n) && negb (l_pk r =? l_pk n)) t).

(** /repo/treebeard/ltree/__init__.py:141-160; a max_depth of 0 is falsy. *)
Definition get_tree (t : lt_table) (parent : option ltrow) (max_depth : option Z) : lt_table :=
  order_path (filter (fun r =>
    match parent with Some p => ppre (l_path p) (l_path r) | None => true end &&
    match max_depth with
    | None => true
    | Some d => if Z.eqb d 0 then true
                else (Z.of_nat (length (l_path r)) <=?
                      d + match parent with Some p => Z.of_nat (length (l_path p)) | None => 0 end)%Z
    end) t).

(** /repo/treebeard/ltree/__init__.py:516-527 *)
Definition get_descendants (t : lt_table) (n : ltrow) (include_self : bool) (max_depth : option Z) : lt_table :=
  if include_self then get_tree t (Some n) max_depth
  else filter (fun r => negb (l_pk r =? l_pk n)) (get_tree t (Some n) max_depth).

(** /repo/treebeard/models.py:534-540 *)
Definition get_descendant_count (t : lt_table) (n : ltrow) (max_depth : option Z) : nat :=
  length (get_descendants t n false max_depth).

(** /repo/treebeard/ltree/__init__.py:340-363: the subquery counts the rows under each
    listed row, minus the row itself. *)
Definition get_descendants_group_count (t : lt_table) (parent : option ltrow) : list (ltrow * Z) :=
  map (fun r => (r, (Z.of_nat (length (filter (fun x => ppre (l_path r) (l_path x)) t)) - 1)%Z))
      (match parent with Some p => get_children t p | None => get_root_nodes t end).

(** /repo/treebeard/ltree/__init__.py:551-582 *)
Definition get_depth (n : ltrow) : nat := length (l_path n).
(** /repo/treebeard/ltree/__init__.py:555-560 *)
Definition is_sibling_of (a b : ltrow) : bool := peq (parent_path (l_path a)) (parent_path (l_path b)).
(** /repo/treebeard/ltree/__init__.py:562-567 *)
Definition is_child_of (a b : ltrow) : bool := peq (parent_path (l_path a)) (l_path b).
(** /repo/treebeard/ltree/__init__.py:569-574 *)
Definition is_descendant_of (a b : ltrow) : bool :=
  (length (l_path b) <? length (l_path a)) && ppre (l_path b) (l_path a).
(** /repo/treebeard/ltree/__init__.py:576-578 *)
Definition is_root (n : ltrow) : bool := length (l_path n) =? 1.
(** /repo/treebeard/ltree/__init__.py:580-582 *)
Definition is_leaf (t : lt_table) (n : ltrow) : bool :=
  match get_children t n with [] => true | _ => false end.

(** ** Writing *)

(** The type check of PostgreSQL on a written ltree value.
    /repo/treebeard/ltree/fields.py:69-70 *)
Definition fits_ltree (p : lpath) : bool := forallb (fun l => length l <=? label_max cfg) p.

(** UPDATE ... SET path = g(path) WHERE cond; raises if a new value is no ltree.
    /repo/treebeard/ltree/__init__.py:318-324, 443-469 *)
Definition update_path (t : lt_table) (cond : ltrow -> bool) (g : lpath -> lpath) : res lt_table :=
  if forallb (fun r => negb (cond r) || fits_ltree (g (l_path r))) t
  then Ok (map (fun r => if cond r then mkLT (l_pk r) (g (l_path r)) (l_data r) else r) t)
  else Err DataError.

(** Model.save(). /repo/treebeard/ltree/__init__.py:188, 226, 263, 327 *)
Definition save_row (t : lt_table) (r : ltrow) : res lt_table :=
  if negb (fits_ltree (l_path r)) then Err DataError
  else if existsb (fun x => l_pk x =? l_pk r) t
  then Ok (map (fun x => if l_pk x =? l_pk r then r else x) t)
  else Ok (r :: t).

(** The deferred UNIQUE constraint at the end of the transaction:
    /repo/treebeard/ltree/__init__.py:586-592. *)
Fixpoint unique_paths (t : lt_table) : bool :=
  match t with
  | [] => true
  | r :: t => negb (existsb (fun x => peq (l_path x) (l_path r)) t) && unique_paths t
  end.
(** The deferred UNIQUE constraint at the end of the transaction,
    /repo/treebeard/ltree/__init__.py:584-592 *)
Definition commit (db : lt_db) : res lt_db := if unique_paths (lt_rows db) then Ok db else Err IntegrityError.

(** subpath(path, 0, d-1) || text2ltree(ltree2text(subpath(path, d-1, 1)) || 'A') || subpath(path, d),
    /repo/treebeard/ltree/__init__.py:446-461 (without the last part for depth d rows),
    465-469 for d = 1. *)
Definition append_A (d : nat) (p : lpath) : lpath :=
  firstn (d - 1) p ++ [nth (d - 1) p [] ++ [chA]] ++ skipn d p.

(** /repo/treebeard/ltree/__init__.py:434-475.  For a root the source does not filter by
    the (empty) parent path, which every path has as an ancestor. *)
Definition move_subtree_right (db : lt_db) (start : ltrow) : res lt_db :=
  let p := l_path start in
  let d := length p in
  let cond r := ppre (parent_path p) (l_path r) && negb (plt (l_path r) p) in
  do t1 <- update_path (lt_rows db) (fun r => cond r && (length (l_path r) =? d)) (append_A d);
  do t2 <- update_path t1 (fun r => cond r && (d <? length (l_path r))) (append_A d);
  Ok (mkLTDB t2 (lt_sig db ++ [MovedRight p])).

(** /repo/treebeard/ltree/__init__.py:409-412: insert_before.path[-1] *)
Definition label_of (r : option ltrow) : option label := option_map (fun r => last_label (l_path r)) r.

(** /repo/treebeard/ltree/__init__.py:404-432; [n] = 2 - num_iters.  A [None] for
    insert_before in the except branch is an attribute error in _move_subtree_right. *)
Fixpoint get_new_path (n : nat) (db : lt_db) (prefix : lpath) (insert_before insert_after : option ltrow)
  (nodes_moved : bool) : res (lt_db * lpath * bool) :=
  let b := label_of insert_before in
  let a := label_of insert_after in
  if match falsy b, falsy a with Some b, Some a => lblt b a | _, _ => false end then Err ValueError
  else
    let siblings := order_path (filter (fun r => ppre prefix (l_path r) && (length (l_path r) =? length prefix + 1)) (lt_rows db)) in
    match generate_path prefix b a (map l_path siblings) with
    | Ok p => Ok (db, p, nodes_moved)
    | Err InvalidLabelConstraints =>
        do start <- opt_res insert_before AttributeError;
        do db' <- move_subtree_right db start;
        do start' <- get_by_pk (lt_rows db') (l_pk start);
        match n with
        | O => Err PathOverflow
        | S n => get_new_path n db' prefix (Some start') insert_after true
        end
    | Err e => Err e
    end.

(** A not yet saved instance. /repo/treebeard/ltree/__init__.py:164-229 *)
Record newobj := mkNew { new_pk : nat; new_data : fields }.

(** /repo/treebeard/models.py:656-693 and .first() *)
Definition sorted_first (l : lt_table) (d : fields) : option ltrow :=
  hd_error (filter (fun r => sorted_after order_by d (l_data r)) l).

(** insert_before / insert_after of a position relative to siblings,
    /repo/treebeard/ltree/__init__.py:245-260 and 283-309 (add_sibling and move use the same
    queries; first and last sibling are [get_siblings(target).first()] / [.last()]). *)
Definition neighbours (t : lt_table) (target : ltrow) (p : pos) (d : fields) : option ltrow * option ltrow :=
  match p with
  | SortedSibling =>
      let b := sorted_first (get_siblings t target) d in
      (b, match b with Some b => get_prev_sibling t b | None => None end)
  | FirstSibling => (get_first_sibling t target, None)
  | Left => (Some target, get_prev_sibling t target)
  | Right => (get_next_sibling t target, Some target)
  | LastSibling => (None, get_last_sibling t target)
  | SortedChild =>
      let b := sorted_first (get_children t target) d in
      (b, match b with Some b => get_prev_sibling t b | None => None end)
  | FirstChild => (get_first_child t target, None)
  | LastChild => (None, get_last_child t target)
  end.

(** /repo/treebeard/ltree/__init__.py:229-264 *)
Definition add_sibling_body (db : lt_db) (target : ltrow) (p : option string) (x : newobj) : res (lt_db * ltrow) :=
  do P <- prepare_pos_add is_sorted p;
  let '(b, a) := neighbours (lt_rows db) target P (new_data x) in
  do '(db1, np, _) <- get_new_path 2 db (parent_path (l_path target)) b a false;
  let r := mkLT (new_pk x) np (new_data x) in
  do t <- save_row (lt_rows db1) r;
  Ok (mkLTDB t (lt_sig db1), r).

(** /repo/treebeard/ltree/__init__.py:231-265 *)
Definition add_sibling db target p x : res (lt_db * ltrow) :=
  do '(db', r) <- add_sibling_body db target p x; do db'' <- commit db'; Ok (db'', r).

(** /repo/treebeard/ltree/__init__.py:162-189 *)
Definition add_root (db : lt_db) (x : newobj) : res (lt_db * ltrow) :=
  do '(db', r) <-
    match get_last_root_node (lt_rows db), is_sorted with
    | Some last, true => add_sibling_body db last (Some "sorted-sibling"%string) x
    | last, _ =>
        do np <- (match last with
                  | Some _ => generate_path [] None None (map l_path (get_root_nodes (lt_rows db)))
                  | None => generate_path [] None None []
                  end);
        let r := mkLT (new_pk x) np (new_data x) in
        do t <- save_row (lt_rows db) r; Ok (mkLTDB t (lt_sig db), r)
    end;
  do db'' <- commit db'; Ok (db'', r).

(** /repo/treebeard/ltree/__init__.py:191-227; the first query (which locks the parent's
    row) fails if the target is not stored. *)
Definition add_child (db : lt_db) (target : ltrow) (x : newobj) : res (lt_db * ltrow) :=
  do '(db', r) <-
    (do _ <- get_by_pk (lt_rows db) (l_pk target);
     if is_sorted && negb (is_leaf (lt_rows db) target) then
       do last <- opt_res (get_last_child (lt_rows db) target) AttributeError;
       add_sibling_body db last (Some "sorted-sibling"%string) x
     else
       do np <-
         (if is_leaf (lt_rows db) target then generate_path (l_path target) None None []
          else
            do last <- opt_res (get_last_child (lt_rows db) target) AttributeError;
            generate_path (l_path target) None (Some (last_label (l_path last)))
              (map l_path (get_children (lt_rows db) target)));
       let r := mkLT (new_pk x) np (new_data x) in
       do t <- save_row (lt_rows db) r; Ok (mkLTDB t (lt_sig db), r));
  do db'' <- commit db'; Ok (db'', r).

(** /repo/treebeard/ltree/__init__.py:266-334.  Returns the database and the caller's
    node object after the call.  [target == node] compares primary keys. *)
Definition move (db : lt_db) (node target : ltrow) (p : option string) : res (lt_db * ltrow) :=
  do P <- prepare_pos_move is_sorted p;
  let child := match P with FirstChild | LastChild | SortedChild => true | _ => false end in
  if child && (l_pk target =? l_pk node) then Err InvalidMoveToDescendant
  else if is_descendant_of target node then Err InvalidMoveToDescendant
  else
    let '(b, a) := neighbours (lt_rows db) target P (l_data node) in
    let prefix := if child then l_path target else parent_path (l_path target) in
    do '(db1, np, moved) <- get_new_path 2 db prefix b a false;
    do node <- (if moved : bool then get_by_pk (lt_rows db1) (l_pk node) else Ok node);
    let old := l_path node in
    do t1 <- update_path (lt_rows db1) (fun r => ppre old (l_path r) && (length old <? length (l_path r)))
               (fun q => np ++ skipn (length old) q);
    let node' := mkLT (l_pk node) np (l_data node) in
    do t2 <- save_row t1 node';
    do db2 <- commit (mkLTDB t2 (lt_sig db1 ++ [Moved old np]));
    Ok (db2, node').

(** /repo/treebeard/ltree/__init__.py:108-119: the minimal list of paths. *)
Fixpoint paths_to_remove (l : lt_table) (acc : list lpath) : list lpath :=
  match l with
  | [] => acc
  | r :: l =>
      let p := l_path r in
      if existsb (fun d => existsb (peq (firstn d p)) acc) (seq 1 (length p - 1))
      then paths_to_remove l acc
      else paths_to_remove l (if existsb (peq p) acc then acc else acc ++ [p])
  end.

(** /repo/treebeard/ltree/__init__.py:99-128; [sel] is the queryset.  No signal is sent for
    an empty selection. *)
Definition delete_queryset (db : lt_db) (sel : ltrow -> bool) : lt_db :=
  match paths_to_remove (order_path (filter sel (lt_rows db))) [] with
  | [] => db
  | ps => mkLTDB (filter (fun r => negb (existsb (fun p => ppre p (l_path r)) ps)) (lt_rows db))
                 (lt_sig db ++ [Deleted ps])
  end.

(** /repo/treebeard/models.py:97-100 *)
Definition delete (db : lt_db) (n : ltrow) : lt_db := delete_queryset db (fun r => l_pk r =? l_pk n).

End LT.
