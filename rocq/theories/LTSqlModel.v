(** The UPDATE statements of the ltree trees, with the functions of PostgreSQL that they use:
    Subpath, Ltree2Text, Text2LTree and Concat (ltree/fields.py, ltree/__init__.py). LTModel.v
    has what they compute when no function raises. *)
From Coq Require Import String List Arith Bool ZArith.
From Verif Require Import Prelude Forest PathTab CommonModel LTModel.
Import ListNotations.
Local Open Scope list_scope.

(** Subpath.__init__ with a number. /repo/treebeard/ltree/fields.py:129-141 *)
Definition subpath_init (pos : Z) : res nat := if (pos <? 0)%Z then Err ValueError else Ok (Z.to_nat pos).

(** subpath(path, start) and subpath(path, start, len) of PostgreSQL: the start has to be in the
    path, and no length means up to the end; with length 0 the result is empty.
    /repo/treebeard/ltree/fields.py:125-141 *)
Definition pg_subpath (p : lpath) (start : nat) (len : option nat) : res lpath :=
  if length p <=? start then Err DataError
  else Ok (match len with None => skipn start p | Some n => firstn n (skipn start p) end).

(** Subpath(F("path"), pos, length). /repo/treebeard/ltree/fields.py:125-141 *)
Definition subpath (p : lpath) (pos : Z) (len : option nat) : res lpath :=
  do s <- subpath_init pos; pg_subpath p s len.

(** A text value: the characters of labels, and [None] for the dot.
    /repo/treebeard/ltree/fields.py:144-153 *)
Notation pgtext := (list (option nat)).

(** ltree2text. /repo/treebeard/ltree/fields.py:144-147 *)
Fixpoint ltree2text (p : lpath) : pgtext :=
  match p with
  | [] => []
  | [l] => map Some l
  | l :: p => map Some l ++ None :: ltree2text p
  end.

(** The parts of a text between dots. /repo/treebeard/ltree/fields.py:150-153 *)
Fixpoint pieces (s : pgtext) : lpath :=
  match s with
  | [] => [[]]
  | None :: s => [] :: pieces s
  | Some c :: s => match pieces s with l :: r => (c :: l) :: r | [] => [[c]] end
  end.

Section LT.
Variable cfg : lt_cfg.

(** text2ltree: no label is empty or too long. /repo/treebeard/ltree/fields.py:150-153 *)
Definition text2ltree (s : pgtext) : res lpath :=
  match s with
  | [] => Ok []
  | _ => if forallb (fun l => (1 <=? length l) && (length l <=? label_max cfg)) (pieces s) then Ok (pieces s) else Err DataError
  end.

(** queryset.filter(cond).update(path=e): no row is written if the expression raises for one.
    /repo/treebeard/ltree/__init__.py:318-324, 443-469 *)
Fixpoint sql_update (t : lt_table) (cond : ltrow -> bool) (e : lpath -> res lpath) : res lt_table :=
  match t with
  | [] => Ok []
  | r :: t =>
      do r' <- (if cond r then do p <- e (l_path r); Ok (mkLT (l_pk r) p (l_data r)) else Ok r);
      do t' <- sql_update t cond e; Ok (r' :: t')
  end.

(** Text2LTree(Concat(Ltree2Text(Subpath(F("path"), pos, 1)), Value("A"))).
    /repo/treebeard/ltree/__init__.py:448, 457, 464, 468 *)
Definition sql_label_A (p : lpath) (pos : Z) : res lpath :=
  do l <- subpath p pos (Some 1); text2ltree (ltree2text l ++ [Some chA]).

(** _move_subtree_right. /repo/treebeard/ltree/__init__.py:434-475 *)
Definition sql_move_subtree_right (db : lt_db) (start : ltrow) : res lt_db :=
  let p := l_path start in
  let d := length p in
  let dz := Z.of_nat d in
  let gte r := negb (plt (l_path r) p) in
  do t2 <-
    (if 1 <? d then
       let below r := ppre (removelast p) (l_path r) in
       do t1 <- sql_update (lt_rows db) (fun r => below r && gte r && (length (l_path r) =? d)) (fun q =>
         do a <- subpath q 0 (Some (d - 1)); do b <- sql_label_A q (dz - 1); Ok (a ++ b));
       sql_update t1 (fun r => below r && gte r && (d <? length (l_path r))) (fun q =>
         do a <- subpath q 0 (Some (d - 1)); do b <- sql_label_A q (dz - 1); do c <- subpath q dz None; Ok (a ++ b ++ c))
     else
       do t1 <- sql_update (lt_rows db) (fun r => gte r && (length (l_path r) =? 1)) (fun q => sql_label_A q 0);
       sql_update t1 (fun r => gte r && (1 <? length (l_path r))) (fun q => do b <- sql_label_A q 0; do c <- subpath q 1 None; Ok (b ++ c)));
  Ok (mkLTDB t2 (lt_sig db ++ [MovedRight p])).

(** The paths of the descendants in move: Concat(Value(new_path), Subpath(F("path"), len(old_path))).
    Value has to be an ltree even if there is no row. /repo/treebeard/ltree/__init__.py:318-324 *)
Definition sql_rename (t : lt_table) (old np : lpath) : res lt_table :=
  do _ <- text2ltree (ltree2text np);
  sql_update t (fun r => ppre old (l_path r) && (length old <? length (l_path r)))
    (fun q => do v <- text2ltree (ltree2text np); do c <- subpath q (Z.of_nat (length old)) None; Ok (v ++ c)).
End LT.
