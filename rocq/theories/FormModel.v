(** Model of MoveNodeForm, /repo/treebeard/forms.py:31-190, for the four kinds of trees.

    The submitted reference node is a row that the form field fetched from the database
    during validation, the edited instance is the row that the view fetched for the form.
    [d] is the data of the instance with the submitted values assigned to it.
    Not modelled: rendering, the validation of the other fields, commit=False, an
    [initial] argument given by the caller. *)
From Coq Require Import String List Arith Bool ZArith.
From Verif Require Import Prelude Forest CommonModel.
From Verif Require MPModel NSModel ALModel LTModel.
Import ListNotations.
Local Open Scope string_scope.

(** /repo/treebeard/forms.py:57-66 and 142-145: the positions that can be chosen *)
Definition form_positions (sorted : bool) : list string :=
  if sorted then ["sorted-child"; "sorted-sibling"] else ["first-child"; "left"; "right"].

(** The two fields that the form adds: the key of the reference node ("-- root --" is None) and
    the position. /repo/treebeard/forms.py:31-76 *)
Record where_to := mkWhere { w_ref : option nat; w_pos : string }.

(** For [changed_data]: /repo/treebeard/forms.py:166-171 *)
Definition ref_eqb (a b : option nat) : bool :=
  match a, b with Some x, Some y => x =? y | None, None => true | _, _ => false end%nat.

(** For [changed_data]: /repo/treebeard/forms.py:166-171 *)
Definition value_eqb (a b : option Z) : bool :=
  match a, b with Some x, Some y => Z.eqb x y | None, None => true | _, _ => false end.

(** /repo/treebeard/forms.py:165-171: is a tree field in changed_data?  The names in
    node_order_by are compared with field names as they are, so that a column with a
    leading "-" is never found. *)
Definition tree_changed (o : ordering) (init sent : where_to) (d d' : fields) : bool :=
  negb (ref_eqb (w_ref init) (w_ref sent)) || negb (w_pos init =? w_pos sent) ||
  existsb (fun c => negb (snd c) && negb (value_eqb (fval d (fst c)) (fval d' (fst c)))) o.

(** /repo/treebeard/forms.py:78-94 _get_initial, given the results of get_parent and
    get_prev_sibling. *)
Definition initial_of (sorted : bool) (parent prev : option nat) (is_root : bool) : where_to :=
  if sorted then mkWhere parent "sorted-child"
  else match prev with
       | Some p => mkWhere (Some p) "right"
       | None => mkWhere (if is_root then None else parent) "first-child"
       end.

(** /repo/treebeard/forms.py:186 the position used without a reference node *)
Definition root_pos (sorted : bool) : string := if sorted then "sorted-sibling" else "first-sibling".

(** ** Materialized paths *)
Section MP.
Import MPModel.
Variable cfg : mp_cfg.
Notation srt := (is_sorted cfg).

(** forms.py:78-94.  In an unsorted tree get_parent is only called for a node that is not
    a root and has no previous sibling; it has no effects. *)
Definition mp_initial (t : mp_table) (n : mprow) : res where_to :=
  do q <- get_parent cfg t n;
  Ok (initial_of srt (option_map m_pk q) (option_map m_pk (get_prev_sibling cfg t n)) (is_root n)).

(** forms.py:117-122 the nodes offered as reference *)
Definition mp_choices (t : mp_table) (n : option mprow) : mp_table :=
  match n with
  | None => get_tree t None None
  | Some n =>
      let ds := get_descendants t n true None in
      filter (fun r => negb (existsb (fun x => m_pk x =? m_pk r)%nat ds)) (get_tree t None None)
  end.

(** forms.py:174-179 saving a new instance *)
Definition mp_form_create (db : mp_db) (x : newobj) (ref : option mprow) (p : string) : res mp_db :=
  match ref with
  | Some t =>
      do '(db1, r, t1) <- add_child cfg db t x;
      do '(db2, _, _) <- move cfg db1 r t1 (Some p);
      Ok db2
  | None => do '(db1, _) <- add_root cfg db x; Ok db1
  end.

(** The fields that ModelForm sets on the instance before save:
    /repo/treebeard/forms.py:149-190 *)
Definition mp_set_data (n : mprow) (d : fields) : mprow := mkMP (m_pk n) (m_path n) (m_depth n) (m_nc n) d.

(** forms.py:180-187 saving an existing instance that has to move.  The reload and the
    second save at the end (188-189) write the row that was read. *)
Definition mp_form_move (db : mp_db) (n : mprow) (ref : option mprow) (p : string) : res mp_db :=
  do db1 <- save_row db n;
  match ref with
  | Some t => do '(db2, _, _) <- move cfg db1 n t (Some p); Ok db2
  | None =>
      do r <- MPModel.opt_res (get_first_root_node (db_rows db1)) AttributeError;
      do '(db2, _, _) <- move cfg db1 n r (Some (root_pos srt)); Ok db2
  end.

(** forms.py:149-190 save for an existing instance *)
Definition mp_form_edit (db : mp_db) (n : mprow) (d : fields) (ref : option mprow) (p : string) : res mp_db :=
  do init <- mp_initial (db_rows db) n;
  let n1 := mp_set_data n d in
  if tree_changed (order_by cfg) init (mkWhere (option_map m_pk ref) p) (m_data n) d
  then mp_form_move db n1 ref p
  else save_row db n1.
End MP.

(** ** Nested sets *)
Section NS.
Import NSModel.
Variable o : ordering.
Notation srt := (is_sorted o).

(** /repo/treebeard/forms.py:78-94 *)
Definition ns_initial (t : ns_table) (n : nsrow) : res where_to :=
  do q <- get_parent t (fresh n);
  do b <- (if srt then Ok None else get_prev_sibling t n);
  Ok (initial_of srt (option_map n_pk q) (option_map n_pk b) (is_root n)).

(** /repo/treebeard/forms.py:120-125 *)
Definition ns_choices (t : ns_table) (n : option nsrow) : ns_table :=
  match n with
  | None => get_tree t None None
  | Some n =>
      let ds := get_descendants t n true None in
      filter (fun r => negb (existsb (fun x => n_pk x =? n_pk r)%nat ds)) (get_tree t None None)
  end.

(** The instance that add_child returns carries the reference node as cached parent if
    that was a leaf (/repo/treebeard/ns_tree.py:174). *)
Definition ns_form_create (db : ns_db) (x : node) (ref : option nsrow) (p : string) : res ns_db :=
  match ref with
  | Some t =>
      do '(db1, r, t1) <- add_child o db t x;
      do '(db2, _, _) <- move o db1 (mkObj r (if is_leaf t then Some t1 else None)) (fresh t1) (Some p);
      Ok db2
  | None => do '(db1, _) <- add_root o db x; Ok db1
  end.

(** The fields that ModelForm sets on the instance before save:
    /repo/treebeard/forms.py:149-190 *)
Definition ns_set_data (n : nsrow) (d : fields) : nsrow := mkNS (n_pk n) (n_tree n) (n_lft n) (n_rgt n) (n_depth n) d.

(** /repo/treebeard/forms.py:180-189 *)
Definition ns_form_move (db : ns_db) (n : nsrow) (ref : option nsrow) (p : string) : res ns_db :=
  let db1 := save_row db n in
  match ref with
  | Some t => do '(db2, _, _) <- move o db1 (fresh n) (fresh t) (Some p); Ok db2
  | None =>
      do r <- MPModel.opt_res (get_first_root_node (ns_rows db1)) AttributeError;
      do '(db2, _, _) <- move o db1 (fresh n) (fresh r) (Some (root_pos srt)); Ok db2
  end.

(** /repo/treebeard/forms.py:149-190 *)
Definition ns_form_edit (db : ns_db) (n : nsrow) (d : fields) (ref : option nsrow) (p : string) : res ns_db :=
  do init <- ns_initial (ns_rows db) n;
  let n1 := ns_set_data n d in
  if tree_changed o init (mkWhere (option_map n_pk ref) p) (n_data n) d
  then ns_form_move db n1 ref p
  else Ok (save_row db n1).
End NS.

(** ** Adjacency lists *)
Section AL.
Import ALModel.
Variable o : ordering.
Notation srt := (is_sorted o).

(** /repo/treebeard/forms.py:78-94 *)
Definition al_initial (t : al_table) (n : alrow) : res where_to :=
  do q <- get_parent t n;
  do b <- (if srt then Ok None else get_prev_sibling o t n);
  Ok (initial_of srt (option_map a_pk q) (option_map a_pk b) (is_root n)).

(** forms.py:105-116.  These are the choices shown; validation accepts every node. *)
Definition al_choices (t : al_table) (n : option alrow) : res (list alobj) :=
  do all <- get_tree o t None None;
  match n with
  | None => Ok all
  | Some n =>
      do ds <- get_descendants o t (fresh n) true None;
      Ok (filter (fun r => negb (existsb (fun x => a_pk (o_row x) =? a_pk (o_row r))%nat ds)) all)
  end.

(** /repo/treebeard/forms.py:174-179 *)
Definition al_form_create (t : al_table) (x : node) (ref : option alrow) (p : string) : res al_table :=
  match ref with
  | Some r =>
      do '(t1, obj) <- add_child o t (fresh r) x;
      do '(t2, _) <- move o t1 obj r (Some p);
      Ok t2
  | None => do '(t1, _) <- add_root o t x; Ok t1
  end.

(** The fields that ModelForm sets on the instance before save:
    /repo/treebeard/forms.py:149-190 *)
Definition al_set_data (n : alrow) (d : fields) : alrow := mkAL (a_pk n) (a_parent n) (a_sib n) d.

(** /repo/treebeard/forms.py:180-189 *)
Definition al_form_move (t : al_table) (n : alrow) (ref : option alrow) (p : string) : res al_table :=
  let t1 := save_row t n in
  match ref with
  | Some r => do '(t2, _) <- move o t1 (fresh n) r (Some p); Ok t2
  | None =>
      do r <- MPModel.opt_res (get_first_root_node o t1) AttributeError;
      do '(t2, _) <- move o t1 (fresh n) r (Some (root_pos srt)); Ok t2
  end.

(** /repo/treebeard/forms.py:149-190 *)
Definition al_form_edit (t : al_table) (n : alrow) (d : fields) (ref : option alrow) (p : string) : res al_table :=
  do init <- al_initial t n;
  let n1 := al_set_data n d in
  if tree_changed o init (mkWhere (option_map a_pk ref) p) (a_data n) d
  then al_form_move t n1 ref p
  else Ok (save_row t n1).
End AL.

(** ** Ltree *)
Section LT.
Import LTModel.
Variable cfg : lt_cfg.
Notation srt := (is_sorted cfg).

(** /repo/treebeard/forms.py:78-94 *)
Definition lt_initial (t : lt_table) (n : ltrow) : res where_to :=
  do q <- get_parent t n;
  Ok (initial_of srt (option_map l_pk q) (option_map l_pk (get_prev_sibling t n)) (is_root n)).

(** /repo/treebeard/forms.py:120-125 *)
Definition lt_choices (t : lt_table) (n : option ltrow) : lt_table :=
  match n with
  | None => get_tree t None None
  | Some n =>
      let ds := get_descendants t n true None in
      filter (fun r => negb (existsb (fun x => l_pk x =? l_pk r)%nat ds)) (get_tree t None None)
  end.

(** /repo/treebeard/forms.py:174-179 *)
Definition lt_form_create (db : lt_db) (x : newobj) (ref : option ltrow) (p : string) : res lt_db :=
  match ref with
  | Some t =>
      do '(db1, r) <- add_child cfg db t x;
      do '(db2, _) <- move cfg db1 r t (Some p);
      Ok db2
  | None => do '(db1, _) <- add_root cfg db x; Ok db1
  end.

(** The fields that ModelForm sets on the instance before save:
    /repo/treebeard/forms.py:149-190 *)
Definition lt_set_data (n : ltrow) (d : fields) : ltrow := mkLT (l_pk n) (l_path n) d.

(** self.instance.save(): /repo/treebeard/forms.py:181 *)
Definition lt_save (db : lt_db) (n : ltrow) : res lt_db :=
  do t1 <- save_row cfg (lt_rows db) n;
  Ok (mkLTDB t1 (lt_sig db)).

(** /repo/treebeard/forms.py:180-189 *)
Definition lt_form_move (db : lt_db) (n : ltrow) (ref : option ltrow) (p : string) : res lt_db :=
  do db1 <- lt_save db n;
  match ref with
  | Some t => do '(db2, _) <- move cfg db1 n t (Some p); Ok db2
  | None =>
      do r <- MPModel.opt_res (get_first_root_node (lt_rows db1)) AttributeError;
      do '(db2, _) <- move cfg db1 n r (Some (root_pos srt)); Ok db2
  end.

(** /repo/treebeard/forms.py:149-190 *)
Definition lt_form_edit (db : lt_db) (n : ltrow) (d : fields) (ref : option ltrow) (p : string) : res lt_db :=
  do init <- lt_initial (lt_rows db) n;
  let n1 := lt_set_data n d in
  if tree_changed (lt_order cfg) init (mkWhere (option_map l_pk ref) p) (l_data n) d
  then lt_form_move db n1 ref p
  else lt_save db n1.
End LT.
