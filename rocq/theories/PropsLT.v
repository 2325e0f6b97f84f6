(** Theorems about ltree trees, ltree/__init__.py and ltree/fields.py (C29-C33 and the ltree
    parts of C24, C37, C38, C44). *)
From Coq Require Import String Ascii List Arith Lia Bool ZArith Sorted Permutation.
From Verif Require Import Prelude Forest SpecFacts SpecSane CommonModel Order History SpecRun SpecKids SpecPerm
  LTModel LTLabel LTInv LTShift LTNewPath LTAdd LTMove LTReads LTHist LTCalm LTCheck LTText LTTextFacts Fixture.
Import ListNotations.
Local Open Scope string_scope.
Local Open Scope list_scope.
Local Open Scope nat_scope.

(** ** C29: labels *)

(** A generated label is a non-empty word over the alphabet, not in [skip], strictly
    between the bounds (an empty bound counts as none). *)
Theorem C29_label skip before after l : (forall a, after = Some a -> Forall (fun c => c < 36) a) ->
  generate_label skip before after = Ok l ->
  l <> [] /\ Forall (fun c => c < 36) l /\ ~ In l skip /\
  (forall a, after = Some a -> a <> [] -> lblt a l = true) /\
  (forall b, before = Some b -> b <> [] -> lblt l b = true).
Proof.
  intros Ha E. destruct (generate_sound _ _ _ _ Ha E) as (H1 & H2 & _ & H4 & H5 & H6). split; auto. split; [|split; auto; split].
  - eapply Forall_impl; [|exact H2]. intros c Hc. apply choices_incl in Hc. unfold digits10, upper26 in Hc.
    apply in_app_iff in Hc. rewrite !in_seq in Hc. lia.
  - intros a -> N. apply H5. destruct a; auto. congruence.
  - intros b -> N. apply H6. destruct b; auto. congruence.
Qed.

(** InvalidLabelConstraints is raised exactly if there is an upper bound and the first
    candidate, [after] or "0", is not below it or is below it by a final "0" only. *)
Theorem C29_constraints skip before after : generate_label skip before after = Err InvalidLabelConstraints <->
  exists b, before = Some b /\ b <> [] /\
    let start := match after with Some (c :: a) => c :: a | _ => [0] end in
    lblt start b = false \/ b = start ++ [0].
Proof.
  rewrite generate_constraints. unfold tight, start_of, choices_of. split.
  - intros (b & E & H). exists b. destruct before as [[|x y]|]; try discriminate. injection E as <-. split; auto. split; [discriminate|].
    cbn [falsy or_else] in H. destruct after as [[|c a]|]; exact H.
  - intros (b & -> & N & H). destruct b as [|x y]; [congruence|]. exists (x :: y). split; auto.
    cbn [falsy or_else]. destruct after as [[|c a]|]; exact H.
Qed.

(** With a bound, room by that rule and no label of [skip] in between (neighbours are
    adjacent), a label is found. *)
Theorem C29_found skip before after : (forall a, after = Some a -> Forall (fun c => c < 36) a) ->
  (exists b, before = Some b /\ b <> []) \/ (exists a, after = Some a /\ a <> []) ->
  (forall s, In s skip -> (forall a, after = Some a -> a <> [] -> lblt a s = true) ->
             (forall b, before = Some b -> b <> [] -> lblt s b = true) -> False) ->
  generate_label skip before after = Err InvalidLabelConstraints \/ exists l, generate_label skip before after = Ok l.
Proof.
  intros Ha Hb Hs. destruct (generate_label skip before after) as [l|e] eqn:E; [right; eauto|]. left. f_equal.
  destruct (generate_err _ _ _ _ E) as [->| ->]; auto. exfalso.
  assert (Nt : ~ tight before after).
  { intros T. apply (generate_constraints skip) in T. congruence. }
  destruct (generate_complete skip before after) as (l & X); auto.
  - destruct Hb as [(b & -> & N)|(a & -> & N)]; [left|right].
    + destruct b; [congruence|discriminate].
    + destruct a; [congruence|discriminate].
  - intros s Hin H1 H2. apply (Hs s Hin).
    + intros a -> N. apply H1. destruct a; [congruence|auto].
    + intros b -> N. apply H2. destruct b; [congruence|auto].
  - congruence.
Qed.

(** Without bounds: one or two letters, unless all 702 of these labels are taken. *)
Theorem C29_free skip :
  (forall l, generate_label skip None None = Ok l -> letters l) /\
  ((exists l, generate_label skip None None = Ok l) \/
   (generate_label skip None None = Err ValueError /\ (forall l, letters l -> In l skip) /\ 702 <= length skip)).
Proof.
  split; [intros l H; apply (free_sound _ _ H)|].
  destruct (free_complete skip) as [H|[H1 H2]]; [left; auto|right]. split; auto. split; auto. apply letters_many. auto.
Qed.

Example C29_example :
  generate_label [] None None = Ok [10] /\ generate_label [[10]; [11]] None None = Ok [12] /\
  generate_label [[10]] (Some [10]) None = Ok [0] /\ generate_label [[0]; [10]] (Some [0]) None = Err InvalidLabelConstraints /\
  generate_label [[10]; [11]] (Some [11]) (Some [10]) = Ok [10; 0] /\
  generate_label [[35]] None (Some [35]) = Ok [35; 0] /\
  generate_label [[10]; [10; 0]] (Some [10; 0]) (Some [10]) = Err InvalidLabelConstraints.
Proof. repeat split; vm_compute; reflexivity. Qed.

(** ** The example tables *)
Definition c0 : lt_cfg := mkLTCfg [] 255.
Definition cs : lt_cfg := mkLTCfg so 255.
Definition ex_db : lt_db := Eval vm_compute in fst (run (lt_exec c0) lt_empty ex_calls).
Definition so_db : lt_db := Eval vm_compute in fst (run (lt_exec cs) lt_empty so_calls).
Definition row (db : lt_db) (i : nat) : ltrow :=
  match get_by_pk (lt_rows db) i with Ok r => r | Err _ => mkLT 0 [] [] end.
Definition pks (db : lt_db) : list nat := map l_pk (get_tree (lt_rows db) None None).

Lemma stores_nil cfg : stores cfg [] Nil.
Proof. exists Nil. split; [|split; [reflexivity|constructor]]. repeat split; constructor. Qed.
Lemma stores_wf cfg t F : stores cfg t F -> wf_ids F.
Proof. intros (f & _ & _ & W). auto. Qed.
Lemma stores_ids cfg t F r : stores cfg t F -> In r t -> In (l_pk r) (ids F).
Proof. intros (f & L & <- & W) Hr. apply (Permutation_in _ (lay_pks cfg _ _ L)). apply in_map; auto. Qed.

(** ** C30: histories *)

(** What it means for a table to store some forest, in terms of its rows. *)
Theorem C30_rows cfg t : (exists F, stores cfg t F) <->
  (forall r, In r t -> l_path r <> [] /\
     Forall (fun l => l <> [] /\ Forall (fun c => c < 36) l /\ length l <= label_max cfg) (l_path r)) /\
  NoDup (map l_path t) /\
  (forall r, In r t -> length (l_path r) = 1 \/ exists r' s, In r' t /\ l_path r = l_path r' ++ [s]) /\
  NoDup (map l_pk t).
Proof.
  rewrite stores_iff. split.
  - intros [[H1 H2 H3] H4]. auto.
  - intros (H1 & H2 & H3 & H4). split; auto. constructor; auto.
Qed.

(** The forest is determined by the table. *)
Theorem C30_unique cfg t F F' : stores cfg t F -> stores cfg t F' -> F = F'.
Proof. apply stores_functional. Qed.

(** Every history, with failing calls: what is stored is the forest built by the calls that
    succeeded, up to the order of siblings. *)
Theorem C30_histories_partial cfg cs : 2 <= label_max cfg -> NoDup (flat_map new_ids cs) ->
  let (db, done) := run (lt_exec cfg) lt_empty cs in
  exists G, stores cfg (lt_rows db) G /\
    forall q, match kid_list q (fold_left (sp_call (lt_order cfg)) done Nil), kid_list q G with
              | Some L, Some M => Permutation L M
              | None, None => True
              | _, _ => False
              end.
Proof.
  intros M ND.
  assert (H := lt_history cfg M cs lt_empty Nil (conj (@NoDup_nil nat) (ex_intro _ Nil (conj (stores_nil cfg) (same_refl Nil)))) ND
    (fun _ _ X => X)).
  destruct (run (lt_exec cfg) lt_empty cs) as [db ok]. destruct H as (_ & G & H). eauto.
Qed.

(** Exactly that forest if every call is made at a calm place: with a neighbour, the labels
    of the siblings do not extend each other by a digit, or there is room between the
    neighbours; without neighbours, the first free letter is after all siblings. *)
Theorem C30_histories_calm cfg cs : 2 <= label_max cfg -> NoDup (flat_map new_ids cs) -> calm_run cfg lt_empty cs ->
  let (db, done) := run (lt_exec cfg) lt_empty cs in
  stores cfg (lt_rows db) (fold_left (sp_call (lt_order cfg)) done Nil).
Proof. intros M ND Ca. apply (lt_history_calm cfg M cs lt_empty Nil (stores_nil cfg) ND (fun _ _ X => X) Ca). Qed.

(** Fewer calls than the limit of labels, and at most 702: the same calls succeed as on
    the forest. *)
Theorem C30_histories_room_partial cfg cs : NoDup (flat_map new_ids cs) -> length cs < label_max cfg -> length cs <= 702 ->
  let (db, done) := run (lt_exec cfg) lt_empty cs in
  let (F, done') := run (sp_exec (lt_order cfg)) Nil cs in
  done = done' /\ exists G, stores cfg (lt_rows db) G /\
    forall q, match kid_list q F, kid_list q G with
              | Some L, Some M => Permutation L M
              | None, None => True
              | _, _ => False
              end.
Proof.
  intros ND H1 H2.
  assert (H := lt_history_room cfg cs 0 lt_empty Nil
    (conj (@NoDup_nil nat) (ex_intro _ Nil (conj (stores_nil _) (same_refl Nil)))) (le_n 1) (le_n 0) H1 H2 ND (fun _ _ X => X)).
  destruct (run (lt_exec cfg) lt_empty cs) as [db ok], (run (sp_exec (lt_order cfg)) Nil cs) as [F ok2].
  destruct H as (E & _ & G & H). split; eauto.
Qed.

(** One call on any stored forest: it has the effect of the call on the forest up to
    the order of siblings (exactly, if calm), or both raise the same error, or a label has
    the greatest length, or all labels of one or two letters are taken. *)
Theorem C30_call_partial cfg db F c : 2 <= label_max cfg -> stores cfg (lt_rows db) F -> fresh_call F c ->
  (exists db' F' S, lt_exec cfg db c = Ok db' /\ sp_exec (lt_order cfg) F c = Ok S /\
     stores cfg (lt_rows db') F' /\ same_kids S F' /\ (calm_call cfg db c -> F' = S)) \/
  (exists e, lt_exec cfg db c = Err e /\ sp_exec (lt_order cfg) F c = Err e) \/
  (lt_exec cfg db c = Err DataError /\
     exists r l, In r (lt_rows db) /\ In l (l_path r) /\ label_max cfg <= length l) \/
  (lt_exec cfg db c = Err ValueError /\
     exists q, forall l, letters l -> exists r, In r (lt_rows db) /\ l_path r = q ++ [l]).
Proof.
  intros M St Fr. destruct (call_step cfg M db F c St Fr) as [H|[H|(S & _ & [[E H]|[E (q & H)]])]]; auto.
  right. right. right. split; auto. exists q. intros l Hl. specialize (H l Hl). unfold labels_below in H.
  apply in_map_iff in H. destruct H as (r & El & Hr). apply filter_In in Hr. destruct Hr as [Hr Hb]. exists r. split; auto.
  apply andb_true_iff in Hb. destruct Hb as [Hp Hn]. apply ppre_iff in Hp. destruct Hp as [z Ez]. apply Nat.eqb_eq in Hn.
  rewrite Ez, app_length in Hn. destruct z as [|y [|? ?]]; cbn in Hn; try lia.
  rewrite Ez in *. rewrite last_snoc in El. congruence.
Qed.

Example C30_histories_example :
  calm_run c0 lt_empty ex_calls /\ calm_run cs lt_empty so_calls /\
  run (lt_exec c0) lt_empty ex_calls = (ex_db, ex_calls) /\ pks ex_db = [7; 1; 3; 5; 2; 4; 6; 9; 10] /\
  length (snd (run (lt_exec cs) lt_empty so_calls)) = 8 /\ pks so_db = [2; 6; 1; 4; 5; 3] /\
  length ex_calls < label_max c0 /\ fresh_call ex_F (CMove 4 5 (Some "left")).
Proof.
  split; [apply calm_runb_ok; vm_compute; reflexivity|]. split; [apply calm_runb_ok; vm_compute; reflexivity|].
  split; [vm_compute; reflexivity|]. split; [vm_compute; reflexivity|]. split; [vm_compute; reflexivity|].
  split; [vm_compute; reflexivity|]. split; [vm_compute; lia|]. intros i [].
Qed.

Lemma ex_stores : stores c0 (lt_rows ex_db) ex_F.
Proof.
  assert (H := C30_histories_calm c0 ex_calls ltac:(cbn; lia) ex_new (proj1 C30_histories_example)).
  assert (E : run (lt_exec c0) lt_empty ex_calls = (ex_db, ex_calls)) by apply C30_histories_example. rewrite E in H. exact H.
Qed.
Lemma so_stores : stores cs (lt_rows so_db) so_F.
Proof.
  assert (H := C30_histories_calm cs so_calls ltac:(cbn; lia) so_new (proj1 (proj2 C30_histories_example))).
  assert (E : run (lt_exec cs) lt_empty so_calls = (so_db, snd (run (lt_exec cs) lt_empty so_calls))) by (vm_compute; reflexivity).
  rewrite E in H. assert (X : fold_left (sp_call so) (snd (run (lt_exec cs) lt_empty so_calls)) Nil = so_F) by (vm_compute; reflexivity).
  change (lt_order cs) with so in H. rewrite X in H. exact H.
Qed.

Section LTProps.
Variable cfg : lt_cfg.
Hypothesis max2 : 2 <= label_max cfg.
Notation o := (lt_order cfg).
Notation stores := (stores cfg).

Definition gt_new (x n : node) : bool := sorted_after o (ndata x) (ndata n).

(** The two ways of failing that have nothing to do with the tree. *)
Definition no_label {A} (t : lt_table) (q : lpath) (out : res A) : Prop :=
  (out = Err DataError /\ exists r l, In r t /\ In l (l_path r) /\ label_max cfg <= length l) \/
  (out = Err ValueError /\ forall l, letters l -> In l (labels_below t q)).

(** ** C30: adding *)
Theorem C30_add_root_partial db F x : stores (lt_rows db) F -> ~ In (nid x) (ids F) ->
  (exists db' r G S L1 L2, add_root cfg db (new_of x) = Ok (db', r) /\ In r (lt_rows db') /\ node_of r = x /\
     added F S None x L1 L2 /\ (if is_sorted cfg then ins_split (PSorted (gt_new x)) L1 L2 else L2 = []) /\
     stores (lt_rows db') G /\ same_kids S G /\ (calm_root cfg (lt_rows db) (ndata x) -> G = S)) \/
  no_label (lt_rows db) [] (add_root cfg db (new_of x)).
Proof.
  intros St Hx. destruct (add_root_ok cfg max2 db F x St Hx) as [(db' & r & G & E & H1 & H2 & H3 & H4 & H5 & H6)|[H|H]];
    [left|right; left; auto|right; right; auto].
  destruct (add_root_sane (gt_opt o (ndata x)) x F (stores_wf _ _ _ St) Hx) as (L1 & L2 & A & M).
  exists db', r, G, (sp_add_root (gt_opt o (ndata x)) x F), L1, L2. split; auto. split; auto.
  split; [unfold node_of; rewrite H2, H3; destruct x; auto|]. split; auto. split; [|auto].
  revert M. unfold gt_opt. change (is_sorted cfg) with (sorts o). destruct (sorts o); auto.
Qed.

Theorem C30_add_child_partial db F target x : stores (lt_rows db) F -> In target (lt_rows db) -> ~ In (nid x) (ids F) ->
  (exists db' r G S L1 L2, add_child cfg db target (new_of x) = Ok (db', r) /\ In r (lt_rows db') /\ node_of r = x /\
     added F S (Some (l_pk target)) x L1 L2 /\ (if is_sorted cfg then ins_split (PSorted (gt_new x)) L1 L2 else L2 = []) /\
     stores (lt_rows db') G /\ same_kids S G /\ (calm_child cfg (lt_rows db) target (ndata x) -> G = S)) \/
  no_label (lt_rows db) (l_path target) (add_child cfg db target (new_of x)).
Proof.
  intros St Ht Hx. destruct (add_child_ok cfg max2 db F target x St Ht Hx) as [(db' & r & G & E & H1 & H2 & H3 & H4 & H5 & H6)|[H|H]];
    [left|right; left; auto|right; right; auto].
  destruct (add_child_sane (gt_opt o (ndata x)) (l_pk target) x F (stores_wf _ _ _ St) (stores_ids _ _ _ _ St Ht) Hx) as (L1 & L2 & A & M).
  exists db', r, G, (sp_add_child (gt_opt o (ndata x)) (l_pk target) x F), L1, L2. split; auto. split; auto.
  split; [unfold node_of; rewrite H2, H3; destruct x; auto|]. split; auto. split; [|auto].
  revert M. unfold gt_opt. change (is_sorted cfg) with (sorts o). destruct (sorts o); auto.
Qed.

(** Without node_order_by a child is always added last. *)
Theorem C30_add_child db F target x : stores (lt_rows db) F -> In target (lt_rows db) -> ~ In (nid x) (ids F) ->
  is_sorted cfg = false ->
  (exists db' r G L, add_child cfg db target (new_of x) = Ok (db', r) /\ In r (lt_rows db') /\ node_of r = x /\
     added F G (Some (l_pk target)) x L [] /\ stores (lt_rows db') G) \/
  no_label (lt_rows db) (l_path target) (add_child cfg db target (new_of x)).
Proof.
  intros St Ht Hx Es. destruct (C30_add_child_partial db F target x St Ht Hx) as
    [(db' & r & G & S & L1 & L2 & E & H1 & H2 & A & M & H4 & _ & H6)|H]; [left|right; auto].
  rewrite Es in M. subst L2. rewrite H6 in H4; [|unfold calm_child; rewrite Es; exact Logic.I]. exists db', r, S, L1. auto 10.
Qed.

Theorem C30_add_sibling_partial db F target p P x : stores (lt_rows db) F -> In target (lt_rows db) -> ~ In (nid x) (ids F) ->
  prepare_pos_add (is_sorted cfg) p = Ok P ->
  (exists db' r G S up L1 L2, add_sibling cfg db target p (new_of x) = Ok (db', r) /\ In r (lt_rows db') /\ node_of r = x /\
     parent_of (l_pk target) F = Some up /\ added F S up x L1 L2 /\ ins_split (sib_place P (l_pk target) (gt_new x)) L1 L2 /\
     stores (lt_rows db') G /\ same_kids S G /\ (calm_pos cfg (lt_rows db) target P (ndata x) -> G = S)) \/
  no_label (lt_rows db) (parent_path (l_path target)) (add_sibling cfg db target p (new_of x)).
Proof.
  intros St Ht Hx Ep. destruct (add_sibling_ok cfg max2 db F target p P x St Ht Hx Ep) as
    [(db' & r & G & E & H1 & H2 & H3 & H4 & H5 & H6)|[H|H]]; [left|right; left; auto|right; right; auto].
  destruct (add_sibling_sane (l_pk target) P (gt_new x) x F (stores_wf _ _ _ St) (stores_ids _ _ _ _ St Ht) Hx
    (prepare_add_sib _ _ _ Ep)) as (up & L1 & L2 & Eu & A & M).
  exists db', r, G, (sp_add_sibling (l_pk target) P (gt_new x) x F), up, L1, L2. split; auto. split; auto.
  split; [unfold node_of; rewrite H2, H3; destruct x; auto|]. auto 10.
Qed.

(** Adding a last sibling never disturbs the order. *)
Theorem C30_add_last_sibling db F target x : stores (lt_rows db) F -> In target (lt_rows db) -> ~ In (nid x) (ids F) ->
  is_sorted cfg = false ->
  (exists db' r G up L, add_sibling cfg db target (Some "last-sibling") (new_of x) = Ok (db', r) /\ In r (lt_rows db') /\
     node_of r = x /\ parent_of (l_pk target) F = Some up /\ added F G up x L [] /\ stores (lt_rows db') G) \/
  no_label (lt_rows db) (parent_path (l_path target)) (add_sibling cfg db target (Some "last-sibling") (new_of x)).
Proof.
  intros St Ht Hx Es. assert (Ep : prepare_pos_add (is_sorted cfg) (Some "last-sibling") = Ok LastSibling) by (rewrite Es; reflexivity).
  destruct (C30_add_sibling_partial db F target _ _ x St Ht Hx Ep) as
    [(db' & r & G & S & up & L1 & L2 & E & H1 & H2 & Eu & A & M & H4 & _ & H6)|H]; [left|right; auto].
  cbn in M. subst L2. rewrite H6 in H4; [exists db', r, S, up, L1; auto 10|].
  destruct St as (f & L & _). eapply calm_last; eauto.
Qed.

(** ** C31, C38, C24: moving *)
Theorem C31_move_partial db F n target p P : stores (lt_rows db) F -> In n (lt_rows db) -> In target (lt_rows db) ->
  prepare_pos_move (is_sorted cfg) p = Ok P -> ~ inside F (l_pk n) (l_pk target) P ->
  let gt := fun x : node => sorted_after o (l_data n) (ndata x) in
  (exists db' n' G S, move cfg db n target p = Ok (db', n') /\ In n' (lt_rows db') /\ l_pk n' = l_pk n /\
     (l_pk n = l_pk target /\ (P = Left \/ P = Right) /\ S = F \/
      exists up a L1 L2,
       (if is_child_pos P then up = Some (l_pk target) else parent_of (l_pk target) F = Some up) /\
       nid a = l_pk n /\ SpecSane.moved F S up a L1 L2 /\ ins_split (sib_place P (l_pk target) gt) L1 L2) /\
     stores (lt_rows db') G /\ same_kids S G /\ (calm_pos cfg (lt_rows db) target P (l_data n) -> G = S)) \/
  no_label (lt_rows db) (if is_child_pos P then l_path target else parent_path (l_path target)) (move cfg db n target p).
Proof.
  intros St Hn Ht Ep NI gt. destruct (move_ok cfg max2 db F n target p P St Hn Ht Ep) as [[H _]|[_ Mv]]; [tauto|].
  destruct Mv as [(db' & r & G & E & H1 & H2 & H3 & H4 & H5)|[H|H]]; [left|right; left; auto|right; right; auto].
  exists db', r, G, (sp_move (l_pk n) (l_pk target) P gt F). split; auto. split; auto. split; auto. split; [|auto].
  destruct (move_sane (l_pk n) (l_pk target) P gt F (stores_wf _ _ _ St) (stores_ids _ _ _ _ St Hn) (stores_ids _ _ _ _ St Ht) NI); auto.
Qed.

(** Moving to the end of a sibling list never disturbs the order. *)
Theorem C31_move_last db F n target p P : stores (lt_rows db) F -> In n (lt_rows db) -> In target (lt_rows db) ->
  prepare_pos_move (is_sorted cfg) p = Ok P -> P = LastSibling \/ P = LastChild -> ~ inside F (l_pk n) (l_pk target) P ->
  (exists db' n' G up a L, move cfg db n target p = Ok (db', n') /\ In n' (lt_rows db') /\ l_pk n' = l_pk n /\
     (if is_child_pos P then up = Some (l_pk target) else parent_of (l_pk target) F = Some up) /\
     nid a = l_pk n /\ SpecSane.moved F G up a L [] /\ stores (lt_rows db') G) \/
  no_label (lt_rows db) (if is_child_pos P then l_path target else parent_path (l_path target)) (move cfg db n target p).
Proof.
  intros St Hn Ht Ep HP NI. destruct (C31_move_partial db F n target p P St Hn Ht Ep NI) as
    [(db' & n' & G & S & E & H1 & H2 & M & H4 & _ & H5)|H]; [left|right; auto].
  assert (Ca : calm_pos cfg (lt_rows db) target P (l_data n)).
  { destruct St as (f & L & _). destruct HP as [->| ->]; [eapply calm_last|eapply calm_last_child]; eauto. }
  rewrite (H5 Ca) in H4. destruct M as [(_ & [->| ->] & _)|(up & a & L1 & L2 & Eu & Ea & M & Sp)]; [destruct HP; discriminate|destruct HP; discriminate|].
  exists db', n', S, up, a, L1. assert (L2 = []) by (destruct HP as [->| ->]; exact Sp). subst L2. auto 10.
Qed.

Theorem C38_lt_no_move_inside db F n target p P : stores (lt_rows db) F -> In n (lt_rows db) -> In target (lt_rows db) ->
  prepare_pos_move (is_sorted cfg) p = Ok P ->
  move cfg db n target p = Err InvalidMoveToDescendant <->
  descends F (l_pk n) (l_pk target) \/ (l_pk n = l_pk target /\ is_child_pos P = true).
Proof.
  intros St Hn Ht Ep. assert (H := move_ok cfg max2 db F n target p P St Hn Ht Ep). unfold inside in H.
  destruct H as [[H1 H2]|[H1 [(a & b & c & E & _)|[[E _]|[E _]]]]]; [tauto| | |]; rewrite E; (split; [discriminate|tauto]).
Qed.

Theorem C24_lt_move db F n target p db' n' : stores (lt_rows db) F -> In n (lt_rows db) -> In target (lt_rows db) ->
  move cfg db n target p = Ok (db', n') -> In n' (lt_rows db') /\ l_pk n' = l_pk n.
Proof.
  intros St Hn Ht E. destruct (prepare_pos_move (is_sorted cfg) p) as [P|e] eqn:Ep.
  - destruct (move_ok cfg max2 db F n target p P St Hn Ht Ep) as [[_ H]|[_ [(d & r & G & E1 & H1 & H2 & _)|[[H _]|[H _]]]]]; try congruence.
    rewrite E in E1. injection E1 as <- <-. auto.
  - unfold move in E. rewrite Ep in E. discriminate.
Qed.

(** ** C32: deleting *)
Theorem C32_delete db F (sel : ltrow -> bool) : stores (lt_rows db) F ->
  let S i := existsb (fun r => (l_pk r =? i) && sel r) (lt_rows db) in
  exists G, stores (lt_rows (delete_queryset db sel)) G /\
    kid_list None G = option_map (filter (fun x => negb (S (nid x)))) (kid_list None F) /\
    (forall q A, ancestors_of q F = Some A -> kid_list (Some q) G =
       if S q || existsb (fun a => S (nid a)) A then None
       else option_map (filter (fun x => negb (S (nid x)))) (kid_list (Some q) F)).
Proof.
  intros St S. exists (remove_all S F). split; [apply (delete_queryset_ok cfg db F sel St)|].
  split; [apply SpecSane.remove_all_roots|]. intros q A E. apply remove_all_sane; auto. apply (stores_wf _ _ _ St).
Qed.

(** The signal of a deletion: once, with the topmost selected paths; none if nothing is
    selected. *)
Theorem C32_delete_signal db F (sel : ltrow -> bool) : stores (lt_rows db) F ->
  if existsb sel (lt_rows db) then
    exists ps, lt_sig (delete_queryset db sel) = lt_sig db ++ [Deleted ps] /\
      forall p, In p ps <-> exists r, In r (lt_rows db) /\ sel r = true /\ l_path r = p /\
        ~ exists y z, In y (lt_rows db) /\ sel y = true /\ z <> [] /\ p = l_path y ++ z
  else delete_queryset db sel = db.
Proof.
  intros St. destruct (delete_queryset_ok cfg db F sel St) as [_ H]. destruct (existsb sel (lt_rows db)); auto.
  destruct H as (ps & E & H). exists ps. split; auto. intros p. rewrite H. split.
  - intros (r & H1 & H2 & H3 & H4). exists r. split; auto. split; auto. split; auto.
    intros (y & z & Y1 & Y2 & Y3 & Y4). apply (H4 y Y1 Y2). exists z. auto.
  - intros (r & H1 & H2 & H3 & H4). exists r. split; auto. split; auto. split; auto.
    intros y Y1 Y2 (z & Y3 & Y4). apply H4. exists y, z. auto.
Qed.

Theorem C32_delete_node db F n : stores (lt_rows db) F -> In n (lt_rows db) ->
  stores (lt_rows (delete db n)) (remove (l_pk n) F) /\ lt_sig (delete db n) = lt_sig db ++ [Deleted [l_path n]].
Proof. apply delete_ok. Qed.

(** ** C32, C37, C44: reading *)
Theorem C32_tree t F d : stores t F -> map node_of (get_tree t None d) = preorder (prune_opt (levels d) F).
Proof. intros (f & L & <- & I). apply tree_read with cfg; auto. Qed.

Theorem C32_roots t F : stores t F -> map node_of (get_root_nodes t) = roots F.
Proof. intros (f & L & <- & I). apply roots_read with cfg; auto. Qed.

Theorem C32_children t F r : stores t F -> In r t -> exists k, kid_list (Some (l_pk r)) F = Some k /\
  map node_of (get_children t r) = k /\ get_children_count t r = length k /\ (is_leaf t r = true <-> k = []) /\
  option_map node_of (get_first_child t r) = hd_error k /\ option_map node_of (get_last_child t r) = last_opt k.
Proof.
  intros (f & L & <- & I) Hr. destruct (children_read cfg t f L I r Hr) as (k & E & H1 & H2 & H3). exists (roots k).
  unfold kid_list. cbn [kids_of]. rewrite E. split; auto. split; auto. split; auto. split.
  - rewrite H3. destruct k; cbn; split; try discriminate; auto.
  - rewrite <- H1. unfold get_first_child, get_last_child, last_opt. rewrite <- map_rev. split.
    + destruct (get_children t r); auto.
    + destruct (rev (get_children t r)); auto.
Qed.

Theorem C32_siblings t F r : stores t F -> In r t ->
  map node_of (get_siblings t r) = siblings_of (l_pk r) F /\
  option_map node_of (get_next_sibling t r) = next_of (l_pk r) (siblings_of (l_pk r) F) /\
  option_map node_of (get_prev_sibling t r) = prev_of (l_pk r) (siblings_of (l_pk r) F) /\
  option_map node_of (get_first_sibling t r) = hd_error (siblings_of (l_pk r) F) /\
  option_map node_of (get_last_sibling t r) = last_opt (siblings_of (l_pk r) F).
Proof.
  intros (f & L & <- & I) Hr. assert (E := siblings_read cfg t f L I r Hr).
  destruct (neighbours_read cfg t f L I r Hr) as [H1 H2]. split; auto. split; auto. split; auto.
  rewrite <- E. unfold get_first_sibling, get_last_sibling, last_opt. rewrite <- map_rev. split.
  - destruct (get_siblings t r); auto.
  - destruct (rev (get_siblings t r)); auto.
Qed.

Theorem C32_descendants t F r d : stores t F -> In r t -> (forall z, d = Some z -> (0 <= z)%Z) ->
  exists k, children_of (l_pk r) F = Some k /\
  map node_of (get_tree t (Some r) d) = node_of r :: preorder (prune_opt (levels d) k) /\
  map node_of (get_descendants t r true d) = node_of r :: preorder (prune_opt (levels d) k) /\
  map node_of (get_descendants t r false d) = preorder (prune_opt (levels d) k) /\
  get_descendant_count t r d = size (prune_opt (levels d) k).
Proof. intros (f & L & <- & I). apply descendants_read with cfg; auto. Qed.

Theorem C32_ancestors t F r : stores t F -> In r t -> exists l, ancestors_of (l_pk r) F = Some l /\
  map node_of (get_ancestors t r) = l /\ get_depth r = S (length l) /\ (is_root r = true <-> l = []) /\
  exists x, get_root t r = Ok x /\ In x t /\ node_of x = hd (node_of r) l.
Proof.
  intros (f & L & <- & I) Hr. destruct (ancestors_read cfg t f L I r Hr) as (l & H1 & H2 & H3 & H4).
  destruct (root_read cfg t f L I r Hr) as (x & l' & X1 & X2 & X3 & X4). exists l. rewrite H1 in X3. injection X3 as <-.
  split; auto. split; auto. split; auto. split; auto. exists x. auto.
Qed.

Theorem C32_parent t F r : stores t F -> In r t -> exists q, get_parent t r = Ok q /\
  parent_of (l_pk r) F = Some (option_map l_pk q) /\ (forall x, q = Some x -> In x t).
Proof. intros (f & L & <- & I). apply parent_read with cfg; auto. Qed.

Theorem C32_predicates t F r n : stores t F -> In r t -> In n t ->
  (is_child_of r n = true <-> parent_of (l_pk r) F = Some (Some (l_pk n))) /\
  (is_sibling_of r n = true <-> parent_of (l_pk r) F = parent_of (l_pk n) F) /\
  (is_descendant_of r n = true <-> descends F (l_pk n) (l_pk r)).
Proof.
  intros (f & L & <- & I) Hr Hn. split; [eapply child_read; eauto|]. split; [eapply sibling_read; eauto|eapply descendant_read; eauto].
Qed.

(** A positive limit counts levels; 0 is no limit and a negative one answers nothing
    (C37_lt_zero_refuted). *)
Theorem C37_lt_partial t F d : stores t F -> d <> 0 ->
  map node_of (get_tree t None (Some (Z.of_nat d))) = preorder (prune d F) /\
  forall r, In r t -> exists k, children_of (l_pk r) F = Some k /\
    map node_of (get_descendants t r false (Some (Z.of_nat d))) = preorder (prune d k).
Proof.
  intros St Hd. assert (El : levels (Some (Z.of_nat d)) = Some d).
  { unfold levels. destruct (Z.eqb_spec (Z.of_nat d) 0); [lia|]. rewrite Nat2Z.id. auto. }
  split; [rewrite (C32_tree t F _ St), El; auto|]. intros r Hr.
  destruct (C32_descendants t F r (Some (Z.of_nat d)) St Hr) as (k & E & _ & _ & H & _); [intros z Hz; injection Hz as <-; lia|].
  exists k. rewrite El in H. auto.
Qed.

Theorem C44_lt_group_counts t F parent : stores t F -> (forall p, parent = Some p -> In p t) ->
  exists l, kids_of (option_map l_pk parent) F = Some l /\
  map (fun x => (node_of (fst x), snd x)) (get_descendants_group_count t parent)
  = map (fun a => (a, match children_of (nid a) F with Some k => Z.of_nat (size k) | None => 0%Z end)) (roots l).
Proof. intros (f & L & <- & I). apply group_count_read with cfg; auto. Qed.

(** ** C33: text *)

(** Every stored path is accepted by the validator and survives the text representation. *)
Theorem C33_stored t F r : stores t F -> In r t ->
  accepted (path_str (path_text (l_path r))) /\
  path_value (VStr (path_str (path_text (l_path r)))) = Ok (path_text (l_path r)).
Proof.
  intros St Hr. destruct (proj1 (C30_rows cfg t) (ex_intro _ F St)) as (H & _). destruct (H r Hr) as [N V].
  apply path_text_ok; auto. eapply Forall_impl; [|exact V]. intros l (H1 & H2 & _). auto.
Qed.
End LTProps.

Theorem C33_roundtrip p : Forall (fun l => l <> [] /\ ~ In dot l /\ forall c, In c l -> is_space c = false) p ->
  path_value (VStr (path_str p)) = Ok p.
Proof. apply path_roundtrip. Qed.

Theorem C33_text s p : path_value (VStr s) = Ok p -> path_str p = strip s.
Proof. apply text_roundtrip. Qed.

Theorem C33_database p : Forall (fun l => l <> [] /\ ~ In dot l /\ forall c, In c l -> is_space c = false) p ->
  exists s, get_db_prep_value (VList p) = Ok (Some s) /\ get_prep_value (VList p) = Ok (Some s) /\
            from_db_value (Some s) = Ok (Some p) /\ to_python (VStr s) = Ok (Some p).
Proof. apply db_roundtrip. Qed.

Theorem C33_validator s : accepted s <->
  exists p, p <> [] /\ Forall (fun l => l <> [] /\ forall c, In c l -> label_char c = true) p /\
    (s = path_str p \/ s = path_str p ++ [newline]).
Proof. apply accepted_iff. Qed.

Theorem C33_generated prefix b a skip p : Forall (fun l => l <> [] /\ Forall (fun c => c < 36) l) prefix ->
  (forall x, a = Some x -> Forall (fun c => c < 36) x) ->
  generate_path prefix b a skip = Ok p -> accepted (path_str (path_text p)).
Proof. apply generated_ok. Qed.

(** Comparing labels is comparing their texts byte by byte, and texts determine paths. *)
Theorem C33_order a b : Forall (fun c => c < 36) a -> Forall (fun c => c < 36) b ->
  PathTab.llt (fun x y => nat_of_ascii x <? nat_of_ascii y) (label_text a) (label_text b) = lblt a b.
Proof. apply label_text_lt. Qed.

Theorem C33_injective p q : Forall (fun l => l <> [] /\ Forall (fun c => c < 36) l) p ->
  Forall (fun l => l <> [] /\ Forall (fun c => c < 36) l) q -> path_str (path_text p) = path_str (path_text q) -> p = q.
Proof. apply path_text_inj. Qed.

(** ** Examples *)
Lemma no_b (i : nat) l : existsb (Nat.eqb i) l = false -> ~ In i l.
Proof. intros E H. assert (existsb (Nat.eqb i) l = true) by (apply existsb_exists; exists i; rewrite Nat.eqb_refl; auto). congruence. Qed.

(** C30: roots, children and siblings added to the example tables, the last one before a
    sibling without room (the label "A" of 4 becomes "AA"). *)
Example C30_example :
  stores c0 (lt_rows ex_db) ex_F /\ ~ In 11 (ids ex_F) /\ In (row ex_db 2) (lt_rows ex_db) /\ is_sorted c0 = false /\
  (exists db' r, add_root c0 ex_db (new_of (nd 11 1)) = Ok (db', r) /\ l_path r = [[12]] /\
     pks db' = [7; 1; 3; 5; 2; 4; 6; 9; 10; 11] /\ calm_root c0 (lt_rows ex_db) [Some 1%Z]) /\
  (exists db' r, add_child c0 ex_db (row ex_db 2) (new_of (nd 11 1)) = Ok (db', r) /\ l_path r = [[11]; [13]] /\
     pks db' = [7; 1; 3; 5; 2; 4; 6; 9; 10; 11]) /\
  (exists db' r, add_sibling c0 ex_db (row ex_db 5) (Some "left") (new_of (nd 11 1)) = Ok (db', r) /\
     l_path r = [[10]; [10; 0]] /\ pks db' = [7; 1; 3; 11; 5; 2; 4; 6; 9; 10] /\
     l_path (row db' 5) = [[10]; [10; 0; 10]] /\ lt_sig db' = lt_sig ex_db ++ [MovedRight [[10]; [10; 0]]]) /\
  (exists db' r, add_sibling c0 ex_db (row ex_db 1) (Some "last-sibling") (new_of (nd 11 1)) = Ok (db', r) /\
     l_path r = [[12]] /\ pks db' = [7; 1; 3; 5; 2; 4; 6; 9; 10; 11]) /\
  (exists db' r, add_sibling cs so_db (row so_db 3) None (new_of (nd 11 8)) = Ok (db', r) /\
     pks db' = [2; 6; 1; 4; 5; 11; 3]).
Proof.
  split; [apply ex_stores|]. split; [apply no_b; vm_compute; reflexivity|]. split; [vm_compute; tauto|]. split; [reflexivity|].
  split; [do 2 eexists; split; [vm_compute; reflexivity|]; split; [reflexivity|]; split; [vm_compute; reflexivity|]|].
  { apply appendableb_ok. vm_compute. reflexivity. }
  split; [do 2 eexists; split; [vm_compute; reflexivity|]; split; vm_compute; reflexivity|].
  split; [do 2 eexists; split; [vm_compute; reflexivity|]; repeat split; vm_compute; reflexivity|].
  split; [do 2 eexists; split; [vm_compute; reflexivity|]; split; vm_compute; reflexivity|].
  do 2 eexists; split; [vm_compute; reflexivity|]; vm_compute; reflexivity.
Qed.

Example C31_example :
  ~ inside ex_F 9 4 Left /\ ~ inside ex_F 4 7 LastChild /\ In (row ex_db 9) (lt_rows ex_db) /\ inside ex_F 2 10 Right /\
  (exists db' n', move c0 ex_db (row ex_db 9) (row ex_db 4) (Some "left") = Ok (db', n') /\
     l_path n' = [[11]; [0]] /\ pks db' = [7; 1; 3; 5; 2; 9; 10; 4; 6] /\
     calm_pos c0 (lt_rows ex_db) (row ex_db 4) Left (l_data (row ex_db 9))) /\
  (exists db' n', move c0 ex_db (row ex_db 2) (row ex_db 7) (Some "first-sibling") = Ok (db', n') /\
     pks db' = [2; 4; 6; 9; 10; 7; 1; 3; 5]) /\
  (exists db' n', move c0 ex_db (row ex_db 4) (row ex_db 7) (Some "last-child") = Ok (db', n') /\
     l_path n' = [[0]; [10]] /\ pks db' = [7; 4; 6; 1; 3; 5; 2; 9; 10]) /\
  move c0 ex_db (row ex_db 2) (row ex_db 10) (Some "right") = Err InvalidMoveToDescendant /\
  (exists db' n', move cs so_db (row so_db 5) (row so_db 2) (Some "sorted-sibling") = Ok (db', n') /\
     pks db' = [2; 6; 1; 4; 3; 5]).
Proof.
  split; [apply insideb_false; vm_compute; reflexivity|]. split; [apply insideb_false; vm_compute; reflexivity|].
  split; [vm_compute; tauto|]. split; [apply insideb_spec; vm_compute; reflexivity|].
  split; [do 2 eexists; split; [vm_compute; reflexivity|]; split; [reflexivity|]; split; [vm_compute; reflexivity|]|].
  { apply calm_posb_ok. vm_compute. reflexivity. }
  split; [do 2 eexists; split; vm_compute; reflexivity|].
  split; [do 2 eexists; split; [vm_compute; reflexivity|]; split; vm_compute; reflexivity|].
  split; [vm_compute; reflexivity|]. do 2 eexists. split; vm_compute; reflexivity.
Qed.

Example C32_example : let t := lt_rows ex_db in
  let l2 := map l_pk (get_children t (row ex_db 2)) in
  pks (delete_queryset ex_db (fun r => existsb (Nat.eqb (l_pk r)) [2; 6; 5])) = [7; 1; 3] /\
  lt_sig (delete_queryset ex_db (fun r => existsb (Nat.eqb (l_pk r)) [2; 6; 5])) =
    lt_sig ex_db ++ [Deleted [[[10]; [10; 0]]; [[11]]]] /\
  pks (delete ex_db (row ex_db 4)) = [7; 1; 3; 5; 2; 9; 10] /\
  map l_pk (get_tree t None (Some 2%Z)) = [7; 1; 3; 5; 2; 4; 9] /\
  map l_pk (get_root_nodes t) = [7; 1; 2] /\ l2 = [4; 9] /\
  map l_pk (get_siblings t (row ex_db 9)) = [4; 9] /\
  map l_pk (get_descendants t (row ex_db 2) false (Some 1%Z)) = [4; 9] /\
  map l_pk (get_ancestors t (row ex_db 10)) = [2; 9] /\
  get_parent t (row ex_db 10) = Ok (Some (row ex_db 9)) /\ get_root t (row ex_db 10) = Ok (row ex_db 2) /\
  is_descendant_of (row ex_db 10) (row ex_db 2) = true /\ is_descendant_of (row ex_db 2) (row ex_db 2) = false /\
  map (fun x => (l_pk (fst x), snd x)) (get_descendants_group_count t None) = [(7, 0%Z); (1, 2%Z); (2, 4%Z)].
Proof. cbv zeta. repeat (split; [vm_compute; reflexivity|]). vm_compute. reflexivity. Qed.

Example C33_example :
  path_str (path_text (l_path (row ex_db 10))) = txt "B.C.A" /\
  path_value (VStr (txt "B.C.A")) = Ok [txt "B"; txt "C"; txt "A"] /\
  path_value (VStr (txt "  B.C ")) = Ok [txt "B"; txt "C"] /\
  accepted (txt "a-b.C_0") /\ ~ accepted (txt "a..b") /\ ~ accepted (txt "") /\ ~ accepted (txt "a b").
Proof.
  split; [vm_compute; reflexivity|]. split; [vm_compute; reflexivity|]. split; [vm_compute; reflexivity|].
  split.
  { apply C33_validator. exists [txt "a-b"; txt "C_0"]. split; [discriminate|]. split; [|left; reflexivity].
    repeat constructor; try discriminate; intros c Hc; cbn in Hc; repeat destruct Hc as [<-|Hc]; try reflexivity; destruct Hc. }
  assert (No : forall s, (s = [] \/ exists l, In l (split s) /\
     (l = [] \/ exists c, In c l /\ label_char c = false)) -> (forall x, s <> x ++ [newline]) -> ~ accepted s).
  { intros s H Nn A. apply C33_validator in A. destruct A as (p & N & G & [X|X]); [|apply (Nn _ X)].
    assert (Ed : Forall no_dot p).
    { eapply Forall_impl; [|exact G]. intros l [_ Hl] Hd. apply Hl in Hd. discriminate. }
    assert (Es : split s = p) by (rewrite X; apply split_join; auto).
    destruct H as [->|(l & Hl & H)].
    - destruct p as [|l [|l' p]]; [congruence| |].
      + cbn in X. subst l. inversion G as [|? ? [G1 _]]; congruence.
      + destruct l; discriminate.
    - rewrite Es in Hl. rewrite Forall_forall in G. destruct (G l Hl) as [G1 G2]. destruct H as [H|(c & Hc & Ec)]; [auto|].
      rewrite (G2 c Hc) in Ec. discriminate. }
  assert (Nl : forall (s : text), last s "x"%char <> newline -> forall x, s <> x ++ [newline]).
  { intros s H x ->. rewrite last_last in H. auto. }
  split; [|split]; apply No; try reflexivity; try (apply Nl; vm_compute; discriminate); auto.
  - right. exists []. vm_compute. auto.
  - right. exists (txt "a b"). split; [vm_compute; auto|]. right. exists " "%char. split; [vm_compute; auto|reflexivity].
Qed.

Print Assumptions C29_label.
Print Assumptions C29_constraints.
Print Assumptions C29_found.
Print Assumptions C29_free.
Print Assumptions C30_rows.
Print Assumptions C30_unique.
Print Assumptions C30_histories_partial.
Print Assumptions C30_histories_calm.
Print Assumptions C30_histories_room_partial.
Print Assumptions C30_call_partial.
Print Assumptions C30_add_root_partial.
Print Assumptions C30_add_child_partial.
Print Assumptions C30_add_child.
Print Assumptions C30_add_sibling_partial.
Print Assumptions C30_add_last_sibling.
Print Assumptions C31_move_partial.
Print Assumptions C31_move_last.
Print Assumptions C38_lt_no_move_inside.
Print Assumptions C24_lt_move.
Print Assumptions C32_delete.
Print Assumptions C32_delete_signal.
Print Assumptions C32_delete_node.
Print Assumptions C32_tree.
Print Assumptions C32_roots.
Print Assumptions C32_children.
Print Assumptions C32_siblings.
Print Assumptions C32_descendants.
Print Assumptions C32_ancestors.
Print Assumptions C32_parent.
Print Assumptions C32_predicates.
Print Assumptions C37_lt_partial.
Print Assumptions C44_lt_group_counts.
Print Assumptions C33_stored.
Print Assumptions C33_roundtrip.
Print Assumptions C33_text.
Print Assumptions C33_database.
Print Assumptions C33_validator.
Print Assumptions C33_generated.
Print Assumptions C33_order.
Print Assumptions C33_injective.
