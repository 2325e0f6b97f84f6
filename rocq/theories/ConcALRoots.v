(** Concurrent add_root and add_child calls on adjacency lists (C81). *)
From Coq Require Import List Arith Lia Bool ZArith Permutation.
From Verif Require Import Prelude Forest SpecFacts SpecSane CommonModel Order History SpecRun
  ALModel ALInv ALUpd ALHist ConcModel ConcRun ConcAL ConcALModel ConcRoots.
Import ListNotations.
Local Open Scope nat_scope.

Section Roots.
Variable o : ordering.

(** The parent of the new node. *)
Definition up_of (c : growth) : option nat := match c with Child k _ => Some k | Root _ => None end.
(** The calls; the node that gets a child has been fetched before.
    /repo/treebeard/al_tree.py:64-93 *)
Definition al_begun (c : growth) : prog alrow := al_new o (up_of c) (grown_by c).
(** The same calls on their own, /repo/treebeard/al_tree.py:64-93 *)
Definition al_grow_exec (t : al_table) (c : growth) : res al_table :=
  al_exec o t (match c with Child k x => CAddChild k x | Root x => CAddRoot x end).
(** Specification: what the calls do to the forest. *)
Definition grow_sorted (F : forest node) (c : growth) : forest node :=
  match c with
  | Child k x => sp_add_child (gt_opt o (ndata x)) k x F
  | Root x => sp_add_root (gt_opt o (ndata x)) x F
  end.
(** The parent is there and the key of the new node is not. *)
Definition prepared (t : al_table) (c : growth) : Prop :=
  (forall k, up_of c = Some k -> In k (map a_pk t)) /\ ~ In (nid (grown_by c)) (map a_pk t).

(** The row that the call inserts when it is alone, /repo/treebeard/al_tree.py:64-93 *)
Definition grown_row (t : al_table) (c : growth) : alrow :=
  mkAL (nid (grown_by c)) (up_of c) (if is_sorted o then 0%Z else next_sib t (up_of c)) (ndata (grown_by c)).

Lemma grow_eq t c : prepared t c -> al_grow_exec t c = Ok (grown_row t c :: t).
Proof.
  intros [Hk Hx]. assert (U := unused t (grown_row t c) Hx).
  assert (E : existsb (fun y => a_pk y =? a_pk (grown_row t c)) t = false).
  { rewrite <- U. clear. induction t as [|a t IH]; auto. cbn [existsb].
    unfold al_same at 1. f_equal; auto. apply Nat.eqb_sym. }
  destruct c as [k x|x]; unfold al_grow_exec, al_exec; cbn [up_of grown_by] in *.
  - destruct (get_some t k (Hk k eq_refl)) as (r & -> & Er). cbn [bind]. unfold add_child. cbn [bind fst ALModel.fresh o_row]. rewrite Er.
    unfold save_row. unfold grown_row in *. cbn [up_of grown_by a_pk] in *. rewrite E. reflexivity.
  - unfold add_root. cbn [bind fst]. unfold save_row. unfold grown_row in *. cbn [up_of grown_by a_pk] in *. rewrite E. reflexivity.
Qed.

Lemma grow_stores t F c t' : stores o t F -> prepared t c -> (o <> [] -> has_values o (ndata (grown_by c))) ->
  al_grow_exec t c = Ok t' -> stores o t' (grow_sorted F c).
Proof.
  intros St [Hk Hx] V E. destruct c as [k x|x]; unfold al_grow_exec in E; cbn [up_of grown_by] in *.
  - assert (Fr : fresh_call F (CAddChild k x)) by (intros i [<-|[]]; rewrite (ids_iff o t F _ St); auto).
    assert (A := al_call_ok o t F (CAddChild k x) St Fr V). rewrite E in A. unfold sp_exec in A.
    assert (H : has k F = true) by (apply has_spec; rewrite (ids_iff o t F _ St); auto). rewrite H in A. exact A.
  - assert (Fr : fresh_call F (CAddRoot x)) by (intros i [<-|[]]; rewrite (ids_iff o t F _ St); auto).
    assert (A := al_call_ok o t F (CAddRoot x) St Fr V). rewrite E in A. exact A.
Qed.

Lemma prepared_after t c d : prepared t c -> nid (grown_by c) <> nid (grown_by d) -> prepared (grown_row t d :: t) c.
Proof.
  intros [R1 R2] A. split; cbn [map grown_row a_pk]; [intros k Ek; right; auto|]. intros [H|H]; auto.
Qed.

(** A row, without its sib_order unless there is node_order_by. *)
Definition plain (r : alrow) : nat * option nat * fields * Z := (a_pk r, a_parent r, a_data r, if is_sorted o then a_sib r else 0%Z).
Definition plain_of (c : growth) : nat * option nat * fields * Z := (nid (grown_by c), up_of c, ndata (grown_by c), 0%Z).

Variables (calls : list growth) (t0 : al_table).
Hypothesis ids_apart : NoDup (map (fun c => nid (grown_by c)) calls).
Hypothesis ready0 : forall c, In c calls -> prepared t0 c.

(** Below its parent [k], a child with this sib_order comes after all the children of [t0]. *)
Definition late (k : option nat) (s : Z) : Prop :=
  if is_sorted o then s = 0%Z else forall r, In r t0 -> a_parent r = k -> (a_sib r < s)%Z.

Inductive midway (c : growth) : tx alrow -> Prop :=
| mw_begin : is_sorted o = false -> midway c (begin (al_begun c))
| mw_insert s : late (up_of c) s -> midway c (mkTx (Insert (mkAL (nid (grown_by c)) (up_of c) s (ndata (grown_by c))) Commit) [] [] None)
| mw_commit s : late (up_of c) s -> midway c (mkTx Commit [New (mkAL (nid (grown_by c)) (up_of c) s (ndata (grown_by c)))] [] None).

Record inv (W : world alrow) : Prop := {
  i_rows : exists new, w_rows W = new ++ t0 /\ Permutation (map plain new) (map plain_of (succeeded calls (w_log W))) /\
    Forall (fun r => late (a_parent r) (a_sib r)) new;
  i_good : Forall (fun e => snd e = None) (w_log W);
  i_len : length (w_txs W) = length calls;
  i_nodup : NoDup (map fst (w_log W));
  i_done : forall i, In i (map fst (w_log W)) <-> nth_error (w_txs W) i = Some None;
  i_run : forall i x, nth_error (w_txs W) i = Some (Some x) -> exists c, nth_error calls i = Some c /\ midway c x }.

Lemma nid_apart i j c d : i <> j -> nth_error calls i = Some c -> nth_error calls j = Some d -> nid (grown_by c) <> nid (grown_by d).
Proof.
  intros N Ec Ed Q. apply N. apply (proj1 (NoDup_nth_error _) ids_apart).
  - rewrite map_length. apply nth_error_Some. congruence.
  - rewrite !nth_error_map, Ec, Ed. cbn. congruence.
Qed.

Lemma done_call log c : In c (succeeded calls log) -> exists i, In i (map fst log) /\ nth_error calls i = Some c.
Proof.
  unfold succeeded. rewrite in_flat_map. intros ([i e] & H1 & H2). cbn in H2. destruct e; [destruct H2|].
  exists i. split; [apply (in_map fst _ _ H1)|]. destruct (nth_error calls i); [|destruct H2]. destruct H2 as [->|[]]; auto.
Qed.

(** The key of a running call is not in use. *)
Lemma key_free W i x c : inv W -> nth_error (w_txs W) i = Some (Some x) -> nth_error calls i = Some c ->
  ~ In (nid (grown_by c)) (map a_pk (w_rows W)).
Proof.
  intros I Ex Ec H. destruct (i_rows W I) as (new & E & P & _). rewrite E, map_app, in_app_iff in H. destruct H as [H|H].
  - assert (H' : In (nid (grown_by c)) (map (fun d => nid (grown_by d)) (succeeded calls (w_log W)))).
    { apply (Permutation_map (fun p : nat * option nat * fields * Z => fst (fst (fst p)))) in P. rewrite !map_map in P.
      apply (Permutation_in _ P). exact H. }
    apply in_map_iff in H'. destruct H' as (d & Ed & Hd). apply done_call in Hd. destruct Hd as (j & Hj & Ej).
    apply (i_done W I) in Hj. apply (nid_apart j i d c); auto. congruence.
  - apply (ready0 c); auto. eapply nth_error_In; eauto.
Qed.

Lemma free W i x : inv W -> nth_error (w_txs W) i = Some (Some x) -> blocked al_same W i x = false.
Proof.
  intros I Ex. apply blocked_false. intros j y N Ey. destruct (i_run W I i x Ex) as (c & Ec & Mc).
  destruct (i_run W I j y Ey) as (d & Ed & Md). destruct Mc as [Eo|s _|s _]; try reflexivity.
  { unfold waits, al_begun, al_new, begin. rewrite Eo. reflexivity. }
  unfold waits. cbn [x_prog]. destruct Md as [Eo|s' _|s' _]; try reflexivity. cbn [x_writes existsb written].
  rewrite orb_false_r. apply Nat.eqb_neq. apply (nid_apart i j); auto.
Qed.

(** What is left to do. *)
Definition left_of (x : tx alrow) : nat := match x_prog x with Select _ => 3 | Insert _ _ => 2 | _ => 1 end.
Definition left_opt (x : option (tx alrow)) : nat := match x with Some x => left_of x | None => 0 end.
Definition work (W : world alrow) : nat := list_sum (map left_opt (w_txs W)).

Lemma work_set i (x : option (tx alrow)) y l : nth_error l i = Some x -> left_opt y < left_opt x ->
  list_sum (map left_opt (set_nth i y l)) < list_sum (map left_opt l).
Proof.
  revert i. induction l as [|a l IH]; intros [|i] E L; try discriminate; cbn [set_nth map list_sum fold_right] in *.
  - injection E as ->. unfold list_sum. cbn [fold_right]. lia.
  - specialize (IH i E L). unfold list_sum in *. cbn [fold_right]. lia.
Qed.

Lemma late_next new k : is_sorted o = false -> late k (next_sib (new ++ t0) k).
Proof.
  intros Eo. unfold late. rewrite Eo. intros r Hr Ep. unfold next_sib.
  assert (H : In (a_sib r) (map a_sib (filter (fun r => par_eqb (a_parent r) k) (new ++ t0)))).
  { apply in_map, filter_In. split; [apply in_app_iff; auto|]. rewrite Ep. apply par_eqb_refl. }
  assert (M := agg_max (map a_sib (filter (fun r => par_eqb (a_parent r) k) (new ++ t0)))).
  destruct (agg Z.max _) as [m|]; cbn [or0].
  - destruct M as [_ M]. specialize (M _ H). lia.
  - rewrite M in H. destruct H.
Qed.

Lemma inv_set W i x x' : inv W -> nth_error (w_txs W) i = Some (Some x) ->
  (forall c, nth_error calls i = Some c -> midway c x') -> inv (mkW (w_rows W) (set_nth i (Some x') (w_txs W)) (w_log W)).
Proof.
  intros [I1 I2 I3 I4 I5 I6] Ex M. split; cbn [w_rows w_txs w_log]; auto.
  - rewrite set_nth_length. auto.
  - intros j. rewrite nth_set_nth. rewrite I5. destruct (Nat.eqb_spec j i) as [->|]; [|tauto].
    rewrite Ex. cbn. split; intros; discriminate.
  - intros j y. rewrite nth_set_nth. destruct (Nat.eqb_spec j i) as [->|]; [|apply I6].
    rewrite Ex. cbn. intros E. injection E as <-. destruct (I6 i x Ex) as (c & Ec & _). exists c. auto.
Qed.

Notation step := (step a_pk al_same).
Notation play := (play a_pk al_same).

Lemma step_ok W i x : inv W -> nth_error (w_txs W) i = Some (Some x) -> inv (step W i) /\ work (step W i) < work W.
Proof.
  intros I Ex. unfold ConcModel.step. rewrite Ex, (free W i x I Ex).
  destruct (i_run W I i x Ex) as (c & Ec & M). assert (K := key_free W i x c I Ex Ec).
  assert (Hi : i < length (w_txs W)) by (apply nth_error_Some; congruence).
  destruct M as [Eo|s L|s L].
  - assert (Eb : begin (al_begun c) = mkTx (Select (fun t => Insert (mkAL (nid (grown_by c)) (up_of c) (next_sib t (up_of c)) (ndata (grown_by c))) Commit)) [] [] None).
    { unfold begin, al_begun, al_new. rewrite Eo. reflexivity. }
    rewrite Eb in *. cbn [solo x_prog goes x_writes x_locks]. split.
    + eapply inv_set; eauto. intros c' Ec'. rewrite Ec in Ec'. injection Ec' as <-.
      destruct (i_rows W I) as (new & E & _). unfold visible. cbn [x_writes fold_left]. rewrite E. apply mw_insert. apply late_next. auto.
    + unfold work. cbn [w_txs]. eapply work_set; eauto.
  - unfold solo. cbn [x_prog x_writes x_locks visible fold_left]. unfold visible. cbn [x_writes fold_left]. rewrite unused by exact K. cbn [goes]. split.
    + eapply inv_set; eauto. intros c' Ec'. rewrite Ec in Ec'. injection Ec' as <-. apply mw_commit. auto.
    + unfold work. cbn [w_txs]. eapply work_set; eauto.
  - cbn [solo x_prog visible x_writes fold_left apply_write]. split.
    2:{ unfold work. cbn [w_txs]. eapply work_set; eauto. }
    destruct I as [I1 I2 I3 I4 I5 I6].
    assert (Ni : ~ In i (map fst (w_log W))) by (rewrite I5; congruence).
    split; cbn [w_rows w_txs w_log].
    + destruct I1 as (new & E & P & G). exists (mkAL (nid (grown_by c)) (up_of c) s (ndata (grown_by c)) :: new). rewrite E. split; auto. split.
      * unfold succeeded. rewrite flat_map_app. cbn [flat_map fst snd]. rewrite Ec, app_nil_r. fold (succeeded calls (w_log W)).
        rewrite map_app. cbn [map]. unfold plain at 1. cbn [a_pk a_parent a_data a_sib].
        replace (if is_sorted o then s else 0%Z) with 0%Z by (unfold late in L; destruct (is_sorted o); auto). fold (plain_of c).
        apply (Permutation_trans (l' := plain_of c :: map plain_of (succeeded calls (w_log W)))); [constructor; auto|apply Permutation_cons_append].
      * constructor; auto.
    + rewrite Forall_app. auto.
    + rewrite set_nth_length. auto.
    + rewrite map_app. cbn. apply (Permutation_NoDup (Permutation_cons_append _ _)). constructor; auto.
    + intros j. rewrite map_app, in_app_iff, nth_set_nth, I5. cbn. destruct (Nat.eqb_spec j i) as [->|N].
      * rewrite Ex. cbn. tauto.
      * split; [intros [H|[H|[]]]; auto; congruence|auto].
    + intros j y. rewrite nth_set_nth. destruct (Nat.eqb_spec j i) as [->|N]; [rewrite Ex; discriminate|]. apply I6.
Qed.

Lemma inv_step W i : inv W -> inv (step W i).
Proof.
  intros I. destruct (nth_error (w_txs W) i) as [[x|]|] eqn:Ex; [apply (step_ok W i x I Ex)| |];
    unfold ConcModel.step; rewrite Ex; auto.
Qed.
Lemma inv_play W l : inv W -> inv (play W l).
Proof. revert W. induction l as [|i l IH]; intros W I; cbn; auto. apply IH, inv_step, I. Qed.

Lemma inv_begin : inv (all_begin t0 (map al_begun calls)).
Proof.
  unfold all_begin. split; cbn [w_rows w_txs w_log].
  - exists []. repeat split; constructor.
  - constructor.
  - rewrite !map_length. auto.
  - constructor.
  - intros i. split; [intros []|]. intros E. apply nth_error_In in E. apply in_map_iff in E. destruct E as (p & E & _). discriminate.
  - intros i x E. rewrite map_map in E. rewrite nth_error_map in E.
    destruct (nth_error calls i) as [c|] eqn:Ec; [|discriminate]. cbn [option_map] in E. injection E as <-. exists c. split; auto.
    destruct (is_sorted o) eqn:Eo; [|apply mw_begin; auto].
    assert (Eb : begin (al_begun c) = mkTx (Insert (mkAL (nid (grown_by c)) (up_of c) 0%Z (ndata (grown_by c))) Commit) [] [] None).
    { unfold begin, al_begun, al_new. rewrite Eo. reflexivity. }
    rewrite Eb. apply mw_insert. unfold late. rewrite Eo. reflexivity.
Qed.

Lemma can_finish W : inv W -> exists l, finished (play W l) = true.
Proof.
  remember (work W) as n eqn:En. revert W En. induction n as [n IH] using (well_founded_induction lt_wf). intros W En I.
  destruct (finished W) eqn:Ef; [exists []; auto|].
  assert (Hx : exists i x, nth_error (w_txs W) i = Some (Some x)).
  { apply (some_running alrow). intros Hr. apply (none_running alrow) in Hr. congruence. }
  destruct Hx as (i & x & Ex). destruct (step_ok W i x I Ex) as [I' L].
  destruct (IH (work (step W i))) with (W := step W i) as [l El]; auto; [lia|]. exists (i :: l). exact El.
Qed.

(** The finished calls one at a time. *)
Lemma one_by_one_plain : forall log t, NoDup (map fst log) -> Forall (fun e => snd e = None) log ->
  (forall i, In i (map fst log) -> exists c, nth_error calls i = Some c /\ prepared t c) ->
  exists t', one_by_one (al_grow_exec) calls t (map fst log) = (t', log) /\
    Permutation (map plain t') (map plain_of (succeeded calls log) ++ map plain t).
Proof.
  induction log as [|[i e] log IH]; intros t ND G Rd; [exists t; split; auto|].
  cbn [map fst] in ND. apply NoDup_cons_iff in ND. destruct ND as [Ni ND].
  assert (Ge : e = None /\ Forall (fun e => snd e = None) log) by (inversion G; auto). destruct Ge as [-> G'].
  destruct (Rd i (or_introl eq_refl)) as (c & Ec & Rc). cbn [map fst one_by_one]. rewrite Ec, (grow_eq t c Rc).
  destruct (IH (grown_row t c :: t)) as (t' & E & P); auto.
  - intros j Hj. destruct (Rd j (or_intror Hj)) as (d & Ed & Rj). exists d. split; auto. apply prepared_after; auto.
    apply (nid_apart j i); auto. intros ->. auto.
  - exists t'. rewrite E. split; auto. rewrite P. unfold succeeded. cbn [flat_map fst snd]. rewrite Ec. cbn [app map].
    fold (succeeded calls log). unfold plain at 1. cbn [grown_row a_pk a_parent a_data a_sib].
    replace (if is_sorted o then if is_sorted o then 0%Z else _ else 0%Z) with 0%Z by (destruct (is_sorted o); auto). fold (plain_of c).
    symmetry. apply Permutation_middle.
Qed.

(** Calls that are prepared succeed one at a time. *)
Lemma serial_ok : (o <> [] -> Forall (fun c => has_values o (ndata (grown_by c))) calls) ->
  forall order t F t' log, stores o t F -> NoDup order ->
  (forall i c, In i order -> nth_error calls i = Some c -> prepared t c) ->
  one_by_one al_grow_exec calls t order = (t', log) ->
  stores o t' (fold_left grow_sorted (succeeded calls log) F).
Proof.
  intros V. induction order as [|i order IH]; intros t F t' log St NO Rd E; cbn [one_by_one] in E.
  - injection E as <- <-. auto.
  - apply NoDup_cons_iff in NO. destruct NO as [Ni NO]. destruct (nth_error calls i) as [c|] eqn:Ec.
    2:{ apply (IH t F t' log); auto. intros; eapply Rd; eauto; right; auto. }
    assert (Rc := Rd i c (or_introl eq_refl) Ec). assert (Ex := grow_eq t c Rc). rewrite Ex in E.
    destruct (one_by_one al_grow_exec calls (grown_row t c :: t) order) as [r l] eqn:E2. injection E as <- <-.
    unfold succeeded. cbn [flat_map fst snd]. rewrite Ec. cbn [app fold_left]. fold (succeeded calls l).
    apply (IH (grown_row t c :: t) (grow_sorted F c) r l); auto.
    + apply (grow_stores t F c); auto. intros No. specialize (V No). rewrite Forall_forall in V. apply V. eapply nth_error_In; eauto.
    + intros j d Hj Ed. apply prepared_after; auto; [apply (Rd j); auto; right; auto|]. apply (nid_apart j i); auto. intros ->. auto.
Qed.

Theorem al_roots F schedule : stores o t0 F ->
  (o <> [] -> Forall (fun c => has_values o (ndata (grown_by c))) calls) ->
  let W := play (all_begin t0 (map al_begun calls)) schedule in
  exists t', one_by_one (al_grow_exec) calls t0 (map fst (w_log W)) = (t', w_log W) /\ NoDup (map fst (w_log W)) /\
  Forall (fun e => snd e = None) (w_log W) /\
  stores o t' (fold_left grow_sorted (succeeded calls (w_log W)) F) /\
  Permutation (map plain (w_rows W)) (map plain t') /\
  (o = [] -> forall r s, In r (w_rows W) -> In s (w_rows W) -> a_parent r = a_parent s -> In (a_pk r) (ids F) -> ~ In (a_pk s) (ids F) ->
     (a_sib r < a_sib s)%Z) /\
  (finished W = true -> Permutation (map fst (w_log W)) (seq 0 (length calls))) /\
  exists schedule', finished (play W schedule') = true.
Proof.
  intros St V W. assert (I : inv W) by (apply inv_play, inv_begin). 
  assert (Rd : forall i, In i (map fst (w_log W)) -> exists c, nth_error calls i = Some c /\ prepared t0 c).
  { intros i Hi. apply (i_done W I) in Hi. destruct (nth_error calls i) as [c|] eqn:Ec.
    - exists c. split; auto. apply ready0. eapply nth_error_In; eauto.
    - apply nth_error_None in Ec. rewrite <- (i_len W I) in Ec. apply nth_error_None in Ec. congruence. }
  destruct (one_by_one_plain (w_log W) t0 (i_nodup W I) (i_good W I) Rd) as (t' & E & P).
  destruct (i_rows W I) as (new & En & Pn & G).
  exists t'. split; auto. split; [apply I|]. split; [apply I|]. split.
  { apply (serial_ok V (map fst (w_log W)) t0 F t' (w_log W) St (i_nodup W I)); auto.
    intros i c Hi Ec. destruct (Rd i Hi) as (c' & Ec' & R). congruence. }
  split.
  { rewrite P, En, map_app, Pn. reflexivity. }
  split.
  { intros Eo r s Hr Hs Ep Ir Is. rewrite En in Hr, Hs. rewrite in_app_iff in Hr, Hs.
    rewrite (ids_iff o t0 F _ St) in Ir. rewrite (ids_iff o t0 F _ St) in Is.
    destruct Hs as [Hs|Hs]; [|destruct Is; apply in_map; auto]. destruct Hr as [Hr|Hr].
    - exfalso. assert (Hp : In (plain r) (map plain_of (succeeded calls (w_log W)))) by (apply (Permutation_in _ Pn), in_map, Hr).
      apply in_map_iff in Hp. destruct Hp as (c & Ec & Hc). apply done_call in Hc. destruct Hc as (j & Hj & Ej).
      assert (R := ready0 c (nth_error_In _ _ Ej)). apply (proj2 R). unfold plain, plain_of in Ec.
      assert (Eid : nid (grown_by c) = a_pk r) by congruence. rewrite Eid. auto.
    - rewrite Forall_forall in G. assert (L := G s Hs). unfold late, is_sorted in L. rewrite Eo in L. apply L; auto. }
  split; [|apply can_finish; auto]. intros Fi. apply NoDup_Permutation; [apply I|apply seq_NoDup|].
  intros i. rewrite (i_done W I), in_seq, <- (i_len W I). cbn. split.
  - intros E'. assert (H : nth_error (w_txs W) i <> None) by congruence. apply nth_error_Some in H. lia.
  - intros [_ Hi]. apply nth_error_Some in Hi. destruct (nth_error (w_txs W) i) as [[x|]|] eqn:E'; auto; [|congruence].
    unfold finished in Fi. rewrite forallb_forall in Fi. apply nth_error_In in E'. apply Fi in E'. discriminate.
Qed.
End Roots.
