(** Checking by computation that calls keep the order of siblings. *)
From Coq Require Import String List Arith Lia Bool.
From Verif Require Import Prelude Forest SpecFacts PathTab CommonModel Order History LTModel LTLabel LTInv LTShift LTNewPath LTAdd LTHist.
Import ListNotations.

Definition tightb (b a : option label) : bool :=
  match falsy b with
  | Some x => negb (lblt (start_of b a) x) || lbeq x (start_of b a ++ [0])
  | None => false
  end.

Definition digit_freeb (L : list label) : bool :=
  forallb (fun x => forallb (fun y =>
    negb (prefixb Nat.ltb x y && (length x <? length y)) || (10 <=? nth (length x) y 0)) L) L.

Definition appendableb (L : list label) : bool :=
  existsb (fun c => forallb (fun d => existsb (lbeq [d]) L) (seq 10 (c - 10)) && forallb (fun x => lblt x [c]) L) (seq 10 26).

Definition calm_atb (L : list label) (b a : option ltrow) : bool :=
  match b, a with
  | None, None => appendableb L
  | _, _ => digit_freeb L || negb (tightb (label_of b) (label_of a))
  end.

Lemma tightb_ok b a : tight b a -> tightb b a = true.
Proof.
  intros (x & E & H). unfold tightb. rewrite E. destruct H as [-> | ->]; auto.
  apply orb_true_iff. right. apply lbeq_iff. auto.
Qed.

Lemma digit_freeb_ok L : digit_freeb L = true -> no_digit_ext L.
Proof.
  intros H x y d z Hx Hy ->. unfold digit_freeb in H. rewrite forallb_forall in H. specialize (H x Hx).
  rewrite forallb_forall in H. specialize (H _ Hy).
  rewrite (proj2 (@prefixb_iff _ Nat.ltb nlt_irr nlt_tot x (x ++ d :: z)) (ex_intro _ _ eq_refl)) in H.
  replace (length x <? length (x ++ d :: z)) with true in H by (symmetry; apply Nat.ltb_lt; rewrite app_length; cbn; lia).
  cbn [andb negb orb] in H. apply Nat.leb_le in H. rewrite app_nth2, Nat.sub_diag in H by lia. exact H.
Qed.

Lemma appendableb_ok L : appendableb L = true -> appendable L.
Proof.
  intros H. apply existsb_exists in H. destruct H as (c & Hc & H). apply in_seq in Hc.
  apply andb_true_iff in H. destruct H as [H1 H2]. rewrite forallb_forall in H1, H2. exists c. split; [lia|]. split; auto.
  intros d Hd. specialize (H1 d). rewrite existsb_exists in H1. destruct H1 as (x & Hx & E); [apply in_seq; lia|].
  apply lbeq_iff in E. subst x. auto.
Qed.

Lemma calm_atb_ok L b a : calm_atb L b a = true -> calm_at L b a.
Proof.
  assert (X : digit_freeb L || negb (tightb (label_of b) (label_of a)) = true ->
    no_digit_ext L \/ ~ tight (label_of b) (label_of a)).
  { intros H. apply orb_true_iff in H. destruct H as [H|H]; [left; apply digit_freeb_ok; auto|right].
    intros T. apply tightb_ok in T. rewrite T in H. discriminate. }
  unfold calm_atb, calm_at. destruct b, a; auto. apply appendableb_ok.
Qed.

Section Calm.
Variable cfg : lt_cfg.
Notation o := (lt_order cfg).

Definition calm_posb (t : lt_table) (target : ltrow) (P : pos) (d : fields) : bool :=
  let ba := neighbours cfg t target P d in
  calm_atb (labels_below t (if is_child_pos P then l_path target else parent_path (l_path target))) (fst ba) (snd ba).

Definition calm_rootb (t : lt_table) (d : fields) : bool :=
  if is_sorted cfg then
    match get_last_root_node t with
    | Some last => calm_posb t last SortedSibling d
    | None => true
    end
  else appendableb (labels_below t []).

Definition calm_childb (t : lt_table) (target : ltrow) (d : fields) : bool :=
  if is_sorted cfg then
    match get_last_child t target with
    | Some last => calm_posb t last SortedSibling d
    | None => true
    end
  else true.

Definition calm_callb (db : lt_db) (c : call) : bool :=
  let t := lt_rows db in
  let at_pk i f := forallb (fun r => negb (l_pk r =? i) || f r) t in
  match c with
  | CAddRoot x => calm_rootb t (ndata x)
  | CAddChild p x => at_pk p (fun r => calm_childb t r (ndata x))
  | CAddSibling q p x =>
      match prepare_pos_add (sorts o) p with
      | Ok P => at_pk q (fun r => calm_posb t r P (ndata x))
      | Err _ => true
      end
  | CMove n q p =>
      match prepare_pos_move (sorts o) p with
      | Ok P => at_pk q (fun r => at_pk n (fun r' => calm_posb t r P (l_data r')))
      | Err _ => true
      end
  | CDelete _ => true
  end.

Fixpoint calm_runb (db : lt_db) (cs : list call) : bool :=
  match cs with
  | [] => true
  | c :: cs => calm_callb db c && match lt_exec cfg db c with Ok db' => calm_runb db' cs | Err _ => calm_runb db cs end
  end.

Lemma calm_posb_ok t r P d : calm_posb t r P d = true -> calm_pos cfg t r P d.
Proof. apply calm_atb_ok. Qed.

Lemma at_pk_ok (t : lt_table) i f r : forallb (fun r => negb (l_pk r =? i) || f r) t = true -> In r t -> l_pk r = i -> f r = true.
Proof.
  intros H Hr E. rewrite forallb_forall in H. specialize (H r Hr). rewrite E, Nat.eqb_refl in H. exact H.
Qed.

Lemma calm_callb_ok db c : calm_callb db c = true -> calm_call cfg db c.
Proof.
  destruct c as [x|p x|t p x|n t p|l]; cbn [calm_callb calm_call]; auto.
  - unfold calm_rootb, calm_root. destruct (is_sorted cfg); [|apply appendableb_ok].
    destruct (get_last_root_node (lt_rows db)); auto. apply calm_posb_ok.
  - intros H t Ht E. apply (at_pk_ok _ _ _ t) in H; auto. revert H. unfold calm_childb, calm_child.
    destruct (is_sorted cfg); auto. destruct (get_last_child (lt_rows db) t); auto. apply calm_posb_ok.
  - intros H r P Hr E Ep. rewrite Ep in H. apply (at_pk_ok _ _ _ r) in H; auto. apply calm_posb_ok; auto.
  - intros H r r' P Hr Hr' E E' Ep. rewrite Ep in H. apply (at_pk_ok _ _ _ r) in H; auto. apply (at_pk_ok _ _ _ r') in H; auto.
    apply calm_posb_ok; auto.
Qed.

Lemma calm_runb_ok cs : forall db, calm_runb db cs = true -> calm_run cfg db cs.
Proof.
  induction cs as [|c cs IH]; intros db H; cbn [calm_run]; auto. cbn [calm_runb] in H.
  apply andb_true_iff in H. destruct H as [H1 H2]. split; [apply calm_callb_ok; auto|].
  destruct (lt_exec cfg db c); auto.
Qed.
End Calm.
