(** Facts about QueryModel.v: the counted calls are the calls of the models, and constant
    bounds on their statements. *)
From Coq Require Import String List Arith Bool ZArith Lia.
From Verif Require Import Prelude Forest CommonModel QueryModel.
From Verif Require MPModel MPFixModel NSModel ALModel LTModel.
Import ListNotations.

Lemma fst_andthen {A B} (x : counted A) (f : A -> counted B) :
  fst (andthen x f) = bind (fst x) (fun a => fst (f a)).
Proof. destruct x as [[a|e] n]; cbn; auto. destruct (f a). auto. Qed.
Lemma bind_ext {A B} (x y : res A) (f g : A -> res B) :
  x = y -> (forall a, f a = g a) -> bind x f = bind y g.
Proof. intros -> H. destruct y; cbn; auto. Qed.
Lemma fst_free {A} (r : res A) : fst (free r) = r. Proof. auto. Qed.
Lemma fst_query {A} (r : res A) : fst (query r) = r. Proof. auto. Qed.
Lemma bind_Ok {A B} (a : A) (f : A -> res B) : bind (Ok a) f = f a. Proof. auto. Qed.
Lemma bind_Err {A B} e (f : A -> res B) : bind (Err e) f = Err e. Proof. auto. Qed.
Lemma bind_assoc {A B C} (x : res A) (f : A -> res B) (g : B -> res C) :
  bind (bind x f) g = bind x (fun a => bind (f a) g).
Proof. destruct x; auto. Qed.

(** Splits the first match in a goal about the first components. *)
Ltac brk := match goal with
  | |- context [match ?x with _ => _ end] =>
      lazymatch x with context [match _ with _ => _ end] => fail | _ => destruct x eqn:? end
  end.
Ltac fsts := repeat (cbv beta zeta; first
  [ reflexivity
  | progress rewrite ?fst_andthen, ?fst_free, ?fst_query, ?bind_Ok, ?bind_Err, ?bind_assoc
  | apply bind_ext; [try reflexivity|intros]
  | brk ]).

(** Bounds *)
Definition within {A} (x : counted A) (n : nat) : Prop := snd x <= n.
Lemma within_free {A} (r : res A) n : within (free r) n. Proof. unfold within. cbn. lia. Qed.
Lemma within_query {A} (r : res A) n : within (query r) (S n). Proof. unfold within. cbn. lia. Qed.
Lemma then_any {A B} (x : counted A) (f : A -> counted B) a b n :
  within x a -> (forall v, fst x = Ok v -> within (f v) b) -> a + b <= n -> within (andthen x f) n.
Proof.
  unfold within. destruct x as [[v|e] k]; cbn; intros X F L; [|lia]. specialize (F v eq_refl).
  destruct (f v). cbn in *. lia.
Qed.
Lemma then_free {A B} (r : res A) (f : A -> counted B) n :
  (forall v, r = Ok v -> within (f v) n) -> within (andthen (free r) f) n.
Proof. intros H. apply then_any with 0 n; auto. apply within_free. Qed.
Lemma then_query {A B} (r : res A) (f : A -> counted B) n :
  (forall v, r = Ok v -> within (f v) n) -> within (andthen (query r) f) (S n).
Proof. intros H. apply then_any with 1 n; auto. apply within_query. Qed.
Lemma within_le {A} (x : counted A) n m : within x n -> n <= m -> within x m.
Proof. unfold within. lia. Qed.
Lemma then_assoc {A B C} (x : counted A) (f : A -> counted B) (g : B -> counted C) :
  andthen (andthen x f) g = andthen x (fun a => andthen (f a) g).
Proof.
  destruct x as [[a|e] n]; cbn; auto. destruct (f a) as [[b|e] k]; cbn; auto.
  destruct (g b). rewrite Nat.add_assoc. auto.
Qed.

Lemma then_ok {A B} (a : A) (f : A -> counted B) : andthen (free (Ok a)) f = f a.
Proof. cbn. destruct (f a). auto. Qed.

Lemma then_err {A B} e (f : A -> counted B) n : within (andthen (free (Err e)) f) n.
Proof. unfold within. cbn. lia. Qed.
Lemma then_query_ok {A B} (a : A) (f : A -> counted B) n : within (f a) n -> within (andthen (query (Ok a)) f) (S n).
Proof. unfold within. cbn. destruct (f a). cbn. lia. Qed.

Lemma then_inv {A B} (x : counted A) (f : A -> counted B) v : fst (andthen x f) = Ok v ->
  exists a, fst x = Ok a /\ fst (f a) = Ok v /\ snd (andthen x f) = snd x + snd (f a).
Proof. destruct x as [[a|e] n]; cbn; [|discriminate]. destruct (f a) as [r k] eqn:E. cbn. intros ->. exists a. rewrite E. auto. Qed.

Ltac bnd := repeat (cbv beta zeta; first
  [ assumption | apply within_free | apply within_query
  | rewrite then_assoc
  | rewrite then_ok
  | apply then_query_ok
  | apply then_err
  | match goal with |- within (andthen (free match ?x with _ => _ end) _) _ => destruct x eqn:? end
  | apply then_free; intros ? _
  | apply then_query; intros ? _
  | brk ]).

(** ** Materialized paths *)
Section MP.
Import MPModel.
Variable cfg : mp_cfg.

Lemma mp_goes_last t p x : fst (QueryModel.MP.goes_last cfg t p x) = Ok (goes_last cfg t p x).
Proof. destruct p; reflexivity. Qed.

Lemma mp_move_siblings l : forall db op tp, fst (QueryModel.MP.move_siblings cfg db op tp l) = move_siblings cfg db op tp l.
Proof.
  induction l as [|r l IH]; intros db op tp; cbn [move_siblings QueryModel.MP.move_siblings]; auto.
  rewrite !fst_andthen. apply bind_ext; auto. intros inc. rewrite !fst_andthen. apply bind_ext; auto. intros db'.
  destruct op; apply IH.
Qed.

Lemma mp_reorder db p np nd tg sib op :
  fst (QueryModel.MP.reorder cfg db p np nd tg sib op) = reorder cfg db p np nd tg (QueryModel.MP.rows_of sib) op.
Proof.
  unfold QueryModel.MP.reorder, reorder. rewrite fst_andthen, mp_goes_last, bind_Ok.
  destruct (goes_last cfg (db_rows db) p tg); [fsts|].
  rewrite fst_andthen, fst_free.
  assert (E : match np with Some n => Ok (n, QueryModel.MP.rows_of sib) | None => reorder_pos cfg (db_rows db) p tg end =
    bind match np with
         | Some n => Ok (n, sib)
         | None => do '(n, l) <- reorder_pos cfg (db_rows db) p tg; Ok (n, Some l)
         end (fun '(n, l) => Ok (n, QueryModel.MP.rows_of l))).
  { destruct np; [reflexivity|]. destruct (reorder_pos _ _ _ _) as [[n l]|]; reflexivity. }
  rewrite E, bind_assoc. apply bind_ext; auto. intros [n l]. rewrite bind_Ok, fst_andthen.
  replace (fst match l with Some l0 => query (Ok l0) | None => free (Ok []) end) with (Ok (QueryModel.MP.rows_of l))
    by (destruct l; reflexivity).
  rewrite bind_Ok, fst_andthen. apply bind_ext.
  { destruct op as [op|]; [|reflexivity]. cbv zeta.
    destruct (_ && _); [|reflexivity]. fsts. }
  intros [db1 temp]. rewrite fst_andthen. apply bind_ext; auto. intros ms. rewrite fst_andthen, mp_move_siblings.
  apply bind_ext; auto. intros [[db2 op2] tp]. destruct op2; [|reflexivity]. fsts.
Qed.

Lemma mp_add_sibling db tg p x : fst (QueryModel.MP.add_sibling cfg db tg p x) = add_sibling cfg db tg p x.
Proof.
  unfold QueryModel.MP.add_sibling, add_sibling. rewrite fst_andthen. apply bind_ext; auto. intros P. cbv zeta.
  rewrite fst_andthen.
  set (m := fst _). set (m' := match P with SortedSibling => _ | _ => _ end).
  assert (E : m' = bind m (fun '(q, n, s) => Ok (q, n, QueryModel.MP.rows_of s))).
  { unfold m, m'. destruct P; try reflexivity. rewrite fst_andthen, fst_query, bind_Ok.
    destruct (sorted_siblings _ _ _ _) as [|f l]; cbn [hd_error]; [reflexivity|]. rewrite fst_andthen, fst_free.
    destruct (get_lastpos cfg (m_path f)); reflexivity. }
  rewrite E, bind_assoc. apply bind_ext; auto. intros [[q n] s]. rewrite bind_Ok, fst_andthen, mp_reorder.
  apply bind_ext; auto. intros [[[db1 o] np] tp]. rewrite fst_andthen. destruct (get_basepath _ _ _) eqn:Eb; fsts.
Qed.

Lemma mp_add_root db x : fst (QueryModel.MP.add_root cfg db x) = add_root cfg db x.
Proof.
  unfold QueryModel.MP.add_root, add_root. rewrite fst_andthen, fst_query, bind_Ok.
  destruct (get_last_root_node _); [|fsts]. destruct (is_sorted cfg); [apply mp_add_sibling|fsts].
Qed.

Lemma mp_add_child db tg x : fst (QueryModel.MP.add_child cfg db tg x) = add_child cfg db tg x.
Proof.
  unfold QueryModel.MP.add_child, add_child. rewrite fst_andthen. apply bind_ext; auto. intros n.
  destruct (_ && _).
  - rewrite fst_andthen. apply bind_ext; auto. intros l. rewrite fst_andthen, mp_add_sibling. apply bind_ext; auto.
    intros [? ?]. reflexivity.
  - cbv zeta. rewrite fst_andthen. apply bind_ext; [destruct (is_leaf n); fsts|]. intros np. fsts.
Qed.

Lemma mp_counts db o n : fst (QueryModel.MP.update_parent_counts cfg db o n) = Ok (update_parent_counts cfg db o n).
Proof.
  unfold QueryModel.MP.update_parent_counts, update_parent_counts. cbv zeta. destruct (peq _ _); [reflexivity|].
  rewrite fst_andthen. destruct (get_parent_path cfg o), (get_parent_path cfg n); reflexivity.
Qed.

Lemma mp_child_vars t n tg p : fst (QueryModel.MP.move_to_child_vars cfg t n tg p) =
  do '(a, b, s, c, d, e) <- move_to_child_vars cfg t n tg p; Ok (a, b, None, c, d, e).
Proof.
  unfold QueryModel.MP.move_to_child_vars, move_to_child_vars. destruct p; try reflexivity; cbv zeta;
    (destruct (_ =? _); [reflexivity|]; destruct (is_leaf tg); [reflexivity|]; rewrite fst_andthen, fst_query;
     destruct (opt_res _ _); reflexivity).
Qed.
Lemma mp_child_none t n tg p a b s c d e : move_to_child_vars cfg t n tg p = Ok (a, b, s, c, d, e) -> s = [].
Proof.
  unfold move_to_child_vars. destruct p; cbv zeta; try (intros H; injection H; intros; subst; reflexivity);
    (destruct (_ =? _); [discriminate|]; destruct (is_leaf tg); [intros H; injection H; intros; subst; reflexivity|];
     destruct (opt_res _ _); cbn [bind]; [intros H; injection H; intros; subst; reflexivity|discriminate]).
Qed.

Lemma mp_prepare t n tg d p np s :
  (do r <- fst (QueryModel.MP.move_prepare cfg t n tg d p np s);
   Ok (option_map (fun '(a, b, c) => (a, b, QueryModel.MP.rows_of c)) r)) =
  move_prepare cfg t n tg d p np (QueryModel.MP.rows_of s).
Proof.
  unfold QueryModel.MP.move_prepare, move_prepare. rewrite fst_andthen.
  set (m := fst match p with SortedSibling => _ | _ => _ end).
  set (m' := match p with SortedSibling => _ | _ => Ok (Some (p, np, QueryModel.MP.rows_of s)) end).
  assert (E : m' = bind m (fun r => Ok (option_map (fun '(a, b, c) => (a, b, QueryModel.MP.rows_of c)) r))).
  { unfold m, m'. destruct p; try reflexivity. cbv zeta. rewrite fst_andthen, fst_query, bind_Ok.
    destruct (sorted_siblings _ _ _ _) as [|f l]; cbn [hd_error]; [reflexivity|]. rewrite fst_andthen, fst_free, bind_assoc.
    apply bind_ext; auto. intros k. rewrite fst_andthen, fst_free, bind_assoc. apply bind_ext; auto. intros h.
    rewrite fst_free. destruct (_ && _); reflexivity. }
  rewrite E, !bind_assoc. apply bind_ext; auto. intros [[[q k] l]|]; [|reflexivity]. rewrite bind_Ok.
  cbn [option_map]. rewrite fst_andthen.
  set (h := fst _). set (h' := (d =? m_depth n) && _).
  assert (H : h = Ok h').
  { unfold h, h'. destruct (d =? m_depth n); [|reflexivity]. destruct q; reflexivity. }
  rewrite H, bind_Ok. destruct h'; [reflexivity|]. rewrite fst_andthen.
  set (g := fst _). set (g' := (m_pk n =? m_pk tg) && _).
  assert (G : g = Ok g').
  { unfold g, g'. destruct (m_pk n =? m_pk tg); [|reflexivity]. destruct q; reflexivity. }
  rewrite G, bind_Ok. destruct g'; reflexivity.
Qed.

Lemma mp_move db n tg p : fst (QueryModel.MP.move cfg db n tg p) = move cfg db n tg p.
Proof.
  unfold QueryModel.MP.move, move. rewrite fst_andthen. apply bind_ext; auto. intros P. cbv zeta.
  rewrite fst_andthen, mp_child_vars, bind_assoc.
  destruct (move_to_child_vars cfg (db_rows db) n tg P) as [[[[[[tg1 d] s] np] p1] ut]|] eqn:E; cbn [bind]; [|reflexivity].
  rewrite (mp_child_none _ _ _ _ _ _ _ _ _ _ E). destruct (is_descendant_of tg1 n); [reflexivity|].
  assert (X := mp_prepare (db_rows db) n tg1 d p1 np None). cbn [QueryModel.MP.rows_of] in X.
  rewrite fst_andthen, <- X, bind_assoc. apply bind_ext; auto.
  intros [[[p2 np2] s2]|]; [|reflexivity]. cbn [option_map]. rewrite bind_Ok, fst_andthen, mp_reorder.
  apply bind_ext; auto. intros [[[db1 op] np'] tp]. rewrite fst_andthen, mp_counts, bind_Ok. fsts.
Qed.

Lemma mp_problem t r : fst (QueryModel.MP.problem_of cfg t r) = Ok (MPFixModel.problem_of cfg t r).
Proof.
  unfold QueryModel.MP.problem_of, MPFixModel.problem_of.
  destruct (existsb _ _); [reflexivity|]. destruct (negb (_ =? 0)); [reflexivity|].
  assert (E : fst (QueryModel.MP.get_parent cfg t r) = get_parent cfg t r).
  { unfold QueryModel.MP.get_parent, get_parent. destruct (_ <=? 1); reflexivity. }
  cbv zeta. rewrite E. destruct (get_parent cfg t r); [|reflexivity]. destruct (negb _); reflexivity.
Qed.
Lemma mp_problems t parent : fst (QueryModel.MP.find_problems cfg t parent) = Ok (MPFixModel.find_problems cfg t parent).
Proof.
  unfold QueryModel.MP.find_problems, MPFixModel.find_problems. rewrite fst_andthen, fst_query, bind_Ok.
  induction (filter _ t) as [|r l IH]; [reflexivity|]. cbn [QueryModel.MP.problem_loop flat_map].
  rewrite fst_andthen, mp_problem, bind_Ok, fst_andthen, IH, bind_Ok.
  destruct (MPFixModel.problem_of cfg t r); reflexivity.
Qed.
End MP.

(** ** Nested sets *)
Section NS.
Import NSModel.
Local Open Scope Z_scope.

Lemma ns_siblings t n : fst (QueryModel.NS.siblings t n) = get_siblings t n.
Proof. unfold QueryModel.NS.siblings. destruct (n_lft n =? 1); reflexivity. Qed.
Lemma ns_get_siblings t n : fst (QueryModel.NS.get_siblings t n) = get_siblings t n.
Proof. unfold QueryModel.NS.get_siblings. rewrite fst_andthen, ns_siblings. destruct (get_siblings t n); reflexivity. Qed.
Lemma ns_get_parent t n : fst (QueryModel.NS.get_parent t n) = get_parent t n.
Proof.
  unfold QueryModel.NS.get_parent, get_parent. destruct (is_root _) eqn:E; [reflexivity|]. destruct (o_up n) eqn:U; reflexivity.
Qed.
Lemma ns_first_sibling t n : fst (QueryModel.NS.get_first_sibling t n) = get_first_sibling t n.
Proof. unfold QueryModel.NS.get_first_sibling, get_first_sibling. rewrite fst_andthen, ns_siblings. reflexivity. Qed.
Lemma ns_last_sibling t n : fst (QueryModel.NS.get_last_sibling t n) = get_last_sibling t n.
Proof. unfold QueryModel.NS.get_last_sibling, get_last_sibling. rewrite fst_andthen, ns_siblings. reflexivity. Qed.
Lemma ns_prev_sibling t n : fst (QueryModel.NS.get_prev_sibling t n) = get_prev_sibling t n.
Proof.
  unfold QueryModel.NS.get_prev_sibling, get_prev_sibling. rewrite fst_andthen, ns_get_siblings.
  destruct (get_siblings t n) as [l|] eqn:E; cbn [bind]; [|reflexivity]. destruct (pk_index _ _) as [[|i]|]; try reflexivity.
  rewrite fst_andthen, ns_siblings, E. cbn [bind]. fsts.
Qed.
Lemma ns_next_sibling t n : fst (QueryModel.NS.get_next_sibling t n) = get_next_sibling t n.
Proof.
  unfold QueryModel.NS.get_next_sibling, get_next_sibling. rewrite fst_andthen, ns_get_siblings.
  destruct (get_siblings t n) as [l|] eqn:E; cbn [bind]; [|reflexivity]. destruct (pk_index _ _) as [i|]; try reflexivity.
  destruct (_ <? _)%nat; [|reflexivity]. rewrite fst_andthen, ns_siblings, E. cbn [bind]. fsts.
Qed.
Lemma ns_is_sibling_of t r n : fst (QueryModel.NS.is_sibling_of t r n) = is_sibling_of t r n.
Proof. unfold QueryModel.NS.is_sibling_of, is_sibling_of. rewrite fst_andthen, ns_siblings. reflexivity. Qed.
Lemma ns_get_children t n : fst (QueryModel.NS.get_children t n) = Ok (get_children t n).
Proof.
  unfold QueryModel.NS.get_children, get_children, get_descendants. destruct (is_leaf n); reflexivity.
Qed.
Lemma ns_is_child_of t r n : fst (QueryModel.NS.is_child_of t r n) = Ok (is_child_of t r n).
Proof. unfold QueryModel.NS.is_child_of, is_child_of. rewrite fst_andthen, ns_get_children. reflexivity. Qed.

Variable order_by : ordering.

Lemma ns_sorted_target l d tg : fst (QueryModel.NS.sorted_target order_by l d tg) = Ok (sorted_target order_by l d tg).
Proof. unfold QueryModel.NS.sorted_target. rewrite fst_andthen. cbn [fst query bind]. destruct (existsb _ _); reflexivity. Qed.

Lemma ns_normalize t p tg : fst (QueryModel.NS.normalize t p tg) = normalize t p tg.
Proof.
  unfold QueryModel.NS.normalize, normalize. destruct p; try reflexivity; rewrite fst_andthen, ns_siblings;
    (apply bind_ext; [reflexivity|]); intros l; cbv zeta; rewrite fst_andthen.
  - cbn [fst free bind]. rewrite fst_andthen. fsts.
  - cbn [fst free bind]. rewrite !fst_andthen. cbn [fst query free bind].
    destruct (same_pk _ _); cbn [bind fst free]; fsts.
  - rewrite fst_andthen, fst_query, bind_Ok. destruct (same_pk (o_row tg) (last_opt l)); [reflexivity|].
    rewrite fst_andthen, fst_query, !bind_Ok, fst_free, bind_Ok, fst_andthen.
    destruct (after_target _ _); cbn [o_row fresh]; fsts.
Qed.

Lemma ns_parent_rgt a t tg : fst (QueryModel.NS.parent_rgt a t tg) = parent_rgt t tg.
Proof.
  unfold QueryModel.NS.parent_rgt, parent_rgt. destruct a; [reflexivity|]. rewrite fst_andthen, ns_get_parent. reflexivity.
Qed.

Lemma ns_sorted_case t (p : pos) (tg : nsobj) d :
  fst match p with
      | SortedSibling => ask sibs <- QueryModel.NS.siblings t (o_row tg); QueryModel.NS.sorted_target order_by sibs d tg
      | _ => free (Ok (p, tg))
      end =
  match p with
  | SortedSibling => do sibs <- get_siblings t (o_row tg); Ok (sorted_target order_by sibs d tg)
  | _ => Ok (p, tg)
  end.
Proof.
  destruct p; try reflexivity. rewrite fst_andthen, ns_siblings. apply bind_ext; auto. intros. apply ns_sorted_target.
Qed.

Lemma ns_add_sibling db tg p x : fst (QueryModel.NS.add_sibling order_by db tg p x) = add_sibling order_by db tg p x.
Proof.
  unfold QueryModel.NS.add_sibling, add_sibling. rewrite fst_andthen. apply bind_ext; auto. intros P. cbv zeta.
  destruct (is_root (o_row tg)); rewrite fst_andthen, ns_sorted_case; apply bind_ext; auto; intros [q tg'];
    rewrite fst_andthen.
  - rewrite fst_query, bind_Ok. fsts.
  - rewrite ns_normalize. apply bind_ext; auto. intros [q2 tg2]. rewrite fst_andthen. apply bind_ext.
    + destruct q2; try reflexivity. apply ns_parent_rgt.
    + intros v. fsts.
Qed.
Lemma ns_add_root db x : fst (QueryModel.NS.add_root order_by db x) = add_root order_by db x.
Proof.
  unfold QueryModel.NS.add_root, add_root. rewrite fst_andthen, fst_query, bind_Ok.
  destruct (get_last_root_node _); [|reflexivity]. destruct (is_sorted order_by); [apply ns_add_sibling|reflexivity].
Qed.
Lemma ns_add_child db tg x : fst (QueryModel.NS.add_child order_by db tg x) = add_child order_by db tg x.
Proof.
  unfold QueryModel.NS.add_child, add_child. rewrite fst_andthen. apply bind_ext; auto. intros n.
  destruct (negb (is_leaf n)); [|reflexivity]. cbv zeta. rewrite fst_andthen, fst_query, bind_Ok.
  destruct (get_last_child _ _); [|reflexivity]. rewrite fst_andthen, ns_add_sibling. apply bind_ext; auto.
  intros [? ?]. reflexivity.
Qed.
Lemma ns_move_target t n tg p : fst (QueryModel.NS.move_target t n tg p) = move_target t n tg p.
Proof. unfold QueryModel.NS.move_target. destruct p; try reflexivity; destruct (_ || _); reflexivity. Qed.
Lemma ns_noop t n tg p : fst (QueryModel.NS.move_is_noop t n tg p) = move_is_noop t n tg p.
Proof.
  unfold QueryModel.NS.move_is_noop, move_is_noop. destruct (_ =? _)%nat; [|reflexivity].
  destruct p; try reflexivity; rewrite fst_andthen, ?ns_first_sibling, ?ns_last_sibling; reflexivity.
Qed.
Lemma ns_make_hole a db gap pa tg p : fst (QueryModel.NS.make_hole a db gap pa tg p) = make_hole db gap pa tg p.
Proof.
  unfold QueryModel.NS.make_hole, make_hole. cbv zeta.
  destruct p; try (destruct (is_root (o_row tg)); try reflexivity); try (destruct pa; reflexivity).
  - rewrite fst_andthen, ns_siblings. reflexivity.
  - rewrite fst_andthen, ns_parent_rgt. reflexivity.
Qed.
Lemma ns_move db n tg p : fst (QueryModel.NS.move order_by db n tg p) = move order_by db n tg p.
Proof.
  unfold QueryModel.NS.move, move. rewrite fst_andthen. apply bind_ext; auto. intros P. cbv zeta.
  rewrite fst_andthen, ns_move_target. apply bind_ext; auto. intros [[pa tg1] p1].
  destruct (is_descendant_of _ _); [reflexivity|]. rewrite fst_andthen, ns_noop. apply bind_ext; auto. intros [|]; [reflexivity|].
  rewrite fst_andthen, ns_sorted_case. apply bind_ext; auto. intros [p2 tg2].
  rewrite fst_andthen, ns_normalize. apply bind_ext; auto. intros [p3 tg3].
  rewrite fst_andthen, ns_make_hole. apply bind_ext; auto. intros [[db1 tt] np]. fsts.
Qed.
End NS.

(** ** Adjacency lists *)
Section AL.
Import ALModel.
Local Open Scope Z_scope.

Lemma al_up_chain t : forall k r, fst (QueryModel.AL.up_chain k t r) = up_chain k t r.
Proof.
  induction k as [|k IH]; intros r; cbn [up_chain QueryModel.AL.up_chain]; [reflexivity|].
  destruct (a_parent r); [|reflexivity]. rewrite fst_andthen. apply bind_ext; auto. intros q. rewrite fst_andthen, IH. reflexivity.
Qed.
Lemma al_get_ancestors t r : fst (QueryModel.AL.get_ancestors t r) = get_ancestors t r.
Proof. apply al_up_chain. Qed.
Lemma al_get_depth t n u : fst (QueryModel.AL.get_depth t n u) = get_depth t n u.
Proof.
  unfold QueryModel.AL.get_depth, get_depth, count_depth. destruct (a_parent _); [|reflexivity].
  destruct u, (o_depth n); try reflexivity; rewrite fst_andthen, al_get_ancestors; destruct (get_ancestors _ _); reflexivity.
Qed.
Lemma al_collect {A B} (f : A -> counted (list B)) g l : (forall x, fst (f x) = g x) ->
  fst (QueryModel.AL.collect f l) = collect g l.
Proof.
  intros H. induction l as [|x l IH]; cbn [collect QueryModel.AL.collect]; [reflexivity|].
  rewrite fst_andthen, H. apply bind_ext; auto. intros a. rewrite fst_andthen, IH. reflexivity.
Qed.

Variable o : ordering.

Lemma al_tree_rec t : forall k pa nhc d m, fst (QueryModel.AL.tree_rec o k t pa nhc d m) = tree_rec o k t pa nhc d m.
Proof.
  induction k as [|k IH]; intros pa nhc d m; cbn [tree_rec QueryModel.AL.tree_rec]; [reflexivity|].
  destruct (too_deep m d); [reflexivity|]. cbv zeta.
  set (c := fst (andthen _ _)).
  assert (E : c = fst (QueryModel.AL.collect (fun n => ask sub <- QueryModel.AL.tree_rec o k t (Some (a_pk n)) (has_children t (a_pk n)) (d + 1) m;
     free (Ok (mkAObj n (Some d) :: sub))) match pa with Some _ => if nhc then kids o t pa else [] | None => get_root_nodes o t end)).
  { unfold c. rewrite fst_andthen. destruct pa; [destruct nhc|]; reflexivity. }
  rewrite E. apply al_collect. intros n. rewrite fst_andthen, IH. reflexivity.
Qed.
Lemma al_get_tree t pa m : fst (QueryModel.AL.get_tree o t pa m) = get_tree o t pa m.
Proof.
  unfold QueryModel.AL.get_tree, get_tree. destruct pa as [q|]; [|apply al_tree_rec].
  rewrite fst_andthen, al_get_depth. apply bind_ext; auto. intros [d q']. rewrite fst_andthen, fst_query, bind_Ok. cbv zeta.
  rewrite fst_andthen, al_tree_rec. reflexivity.
Qed.
Lemma al_get_descendants t n i m : fst (QueryModel.AL.get_descendants o t n i m) = get_descendants o t n i m.
Proof. unfold QueryModel.AL.get_descendants, get_descendants. rewrite fst_andthen, al_get_tree. reflexivity. Qed.
Lemma al_is_descendant_of t r n : fst (QueryModel.AL.is_descendant_of o t r n) = is_descendant_of o t r n.
Proof. unfold QueryModel.AL.is_descendant_of, is_descendant_of. rewrite fst_andthen, al_get_descendants. reflexivity. Qed.
Lemma al_add_root t x : fst (QueryModel.AL.add_root o t x) = add_root o t x.
Proof. unfold QueryModel.AL.add_root, add_root, QueryModel.AL.next_sib. rewrite fst_andthen. destruct (is_sorted o); reflexivity. Qed.
Lemma al_add_child t tg x : fst (QueryModel.AL.add_child o t tg x) = add_child o t tg x.
Proof. unfold QueryModel.AL.add_child, add_child, QueryModel.AL.next_sib. cbv zeta. rewrite fst_andthen. destruct (is_sorted o); reflexivity. Qed.
Lemma al_new_order t p tg : fst (QueryModel.AL.get_new_sibling_order o t p tg) = get_new_sibling_order o t p tg.
Proof.
  unfold QueryModel.AL.get_new_sibling_order, get_new_sibling_order. rewrite fst_andthen.
  replace (fst (QueryModel.AL.is_target_pos_the_last_sibling o t p tg)) with (Ok (is_target_pos_the_last_sibling o t p tg))
    by (unfold QueryModel.AL.is_target_pos_the_last_sibling; destruct p; reflexivity).
  rewrite bind_Ok. destruct (is_target_pos_the_last_sibling o t p tg); [reflexivity|].
  unfold QueryModel.AL.make_hole_and_get_sibling_order, make_hole_and_get_sibling_order. rewrite fst_andthen, fst_free.
  apply bind_ext; auto. intros [s k]. rewrite fst_andthen, fst_query, bind_Ok. cbv zeta. destruct (_ =? 0); reflexivity.
Qed.
Lemma al_add_sibling t tg p x : fst (QueryModel.AL.add_sibling o t tg p x) = add_sibling o t tg p x.
Proof.
  unfold QueryModel.AL.add_sibling, add_sibling. rewrite fst_andthen. apply bind_ext; auto. intros P.
  rewrite fst_andthen. apply bind_ext; [destruct (is_sorted o); [reflexivity|apply al_new_order]|].
  intros [t' s]. reflexivity.
Qed.
Lemma al_move_target t n tg p : fst (QueryModel.AL.move_target o t n tg p) = move_target o t n tg p.
Proof.
  unfold QueryModel.AL.move_target, move_target.
  destruct p; try reflexivity; destruct (a_pk n =? a_pk tg)%nat eqn:E; try reflexivity; rewrite fst_andthen, fst_query, bind_Ok;
    destruct (is_leaf o t tg) eqn:L; reflexivity.
Qed.
Lemma al_noop t n tg p : fst (QueryModel.AL.move_is_noop o t n tg p) = Ok (move_is_noop o t n tg p).
Proof. unfold QueryModel.AL.move_is_noop. cbv zeta. destruct (_ =? _)%nat; [destruct p|]; reflexivity. Qed.
Lemma al_move t n tg p : fst (QueryModel.AL.move o t n tg p) = move o t n tg p.
Proof.
  unfold QueryModel.AL.move, move. rewrite fst_andthen. apply bind_ext; auto. intros P.
  rewrite fst_andthen, al_move_target. apply bind_ext; auto. intros [[[tg1 pa] p1] so].
  rewrite fst_andthen, al_is_descendant_of. apply bind_ext; auto. intros [|]; [reflexivity|].
  rewrite fst_andthen. apply bind_ext; auto. intros [d n']. rewrite fst_andthen, al_noop, bind_Ok.
  destruct (move_is_noop o t (o_row n') tg1 p1); [reflexivity|]. cbv zeta. rewrite fst_andthen.
  replace (fst (QueryModel.AL.new_parent t pa tg1)) with (Ok match pa with Some q => Some (a_pk q) | None => a_parent tg1 end)
    by (unfold QueryModel.AL.new_parent; destruct pa; [|destruct (a_parent tg1)]; reflexivity).
  rewrite bind_Ok, fst_andthen. apply bind_ext.
  - destruct p1; try reflexivity; destruct so; try reflexivity; apply al_new_order.
  - intros [t1 s]. reflexivity.
Qed.
End AL.

(** ** Ltree *)
Section LT.
Import LTModel.
Variable cfg : lt_cfg.

Lemma lt_right db s : fst (QueryModel.LT.move_subtree_right cfg db s) = move_subtree_right cfg db s.
Proof. unfold QueryModel.LT.move_subtree_right, move_subtree_right. cbv zeta. fsts. Qed.
Lemma lt_new_path : forall n db pre b a m, fst (QueryModel.LT.get_new_path cfg n db pre b a m) = get_new_path cfg n db pre b a m.
Proof.
  induction n as [|n IH]; intros db pre b a m; cbn [get_new_path QueryModel.LT.get_new_path]; cbv zeta;
    (destruct (match falsy _ with Some _ => _ | None => _ end); [reflexivity|]);
    rewrite fst_andthen, fst_query, bind_Ok;
    (destruct (generate_path _ _ _ _) as [q|e]; [reflexivity|]); destruct e; try reflexivity;
    rewrite fst_andthen; (apply bind_ext; [reflexivity|]); intros s; rewrite fst_andthen, lt_right;
    (apply bind_ext; [reflexivity|]); intros db'; rewrite fst_andthen; (apply bind_ext; [reflexivity|]); intros s'.
  - reflexivity.
  - apply IH.
Qed.
Lemma lt_neighbours t tg p d : fst (QueryModel.LT.neighbours cfg t tg p d) = Ok (neighbours cfg t tg p d).
Proof.
  unfold QueryModel.LT.neighbours, neighbours. destruct p; try reflexivity; rewrite fst_andthen, fst_query, bind_Ok;
    cbv zeta; destruct (sorted_first _ _ _); reflexivity.
Qed.
Lemma lt_body db tg p x : fst (QueryModel.LT.add_sibling_body cfg db tg p x) = add_sibling_body cfg db tg p x.
Proof.
  unfold QueryModel.LT.add_sibling_body, add_sibling_body. rewrite fst_andthen. apply bind_ext; auto. intros P.
  rewrite fst_andthen, lt_neighbours, bind_Ok. destruct (neighbours _ _ _ _ _) as [b a].
  rewrite fst_andthen, lt_new_path. apply bind_ext; auto. intros [[db1 np] m]. fsts.
Qed.
Lemma lt_add_sibling db tg p x : fst (QueryModel.LT.add_sibling cfg db tg p x) = add_sibling cfg db tg p x.
Proof.
  unfold QueryModel.LT.add_sibling, add_sibling. rewrite fst_andthen, lt_body. apply bind_ext; auto. intros [? ?]. fsts.
Qed.
Lemma lt_add_root db x : fst (QueryModel.LT.add_root cfg db x) = add_root cfg db x.
Proof.
  unfold QueryModel.LT.add_root, add_root. rewrite fst_andthen. apply bind_ext; [|intros [? ?]; fsts].
  rewrite fst_andthen, fst_query, bind_Ok. destruct (get_last_root_node _) as [l|]; [|destruct (is_sorted cfg); fsts].
  destruct (is_sorted cfg); [apply lt_body|fsts].
Qed.
Lemma lt_add_child db tg x : fst (QueryModel.LT.add_child cfg db tg x) = add_child cfg db tg x.
Proof.
  unfold QueryModel.LT.add_child, add_child. cbv zeta. rewrite fst_andthen. apply bind_ext; [|intros [? ?]; fsts].
  rewrite fst_andthen. apply bind_ext; auto. intros u. rewrite fst_andthen.
  destruct (is_sorted cfg); cbn [fst query free bind andb].
  - destruct (negb (is_leaf _ _)) eqn:L.
    + rewrite fst_andthen. apply bind_ext; auto. intros l. apply lt_body.
    + apply negb_false_iff in L. rewrite fst_andthen, fst_query, bind_Ok, L. fsts.
  - rewrite fst_andthen, fst_query, bind_Ok. destruct (is_leaf _ _); fsts.
Qed.
Lemma lt_move db n tg p : fst (QueryModel.LT.move cfg db n tg p) = move cfg db n tg p.
Proof.
  unfold QueryModel.LT.move, move. rewrite fst_andthen. apply bind_ext; auto. intros P. cbv zeta.
  destruct (_ && _); [reflexivity|]. destruct (is_descendant_of _ _); [reflexivity|].
  rewrite fst_andthen, lt_neighbours, bind_Ok. destruct (neighbours _ _ _ _ _) as [b a].
  rewrite fst_andthen, lt_new_path. apply bind_ext; auto. intros [[db1 np] m]. fsts.
Qed.
End LT.
