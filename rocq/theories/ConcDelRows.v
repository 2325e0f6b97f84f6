(** Concurrent deletions by transactions that read, and then delete rows in one statement
    (C66). *)
From Coq Require Import List Arith Bool Lia Permutation.
From Verif Require Import Prelude ConcModel ConcRun ConcLock.
Import ListNotations.

Section Rows.
Variable R : Type.
Variable pk : R -> nat.
Variable same : R -> R -> bool.
Notation solo := (solo pk same).
Notation play := (play pk same).
Notation after := (after pk).
Variable start : list nat -> prog R.
Variable exec : list R -> list nat -> res (list R).
Variable ok : list R -> Prop.
(** The rows a call alone deletes. *)
Variable gone : list R -> list nat -> R -> bool.
(** The states before the DELETE. *)
Variable pre : list R -> list nat -> tx R -> Prop.

Definition agrees (t : list R) (l : list nat) (sel : R -> bool) : Prop := forall r, In r t -> sel r = gone t l r.

Record row_deletes : Prop := {
  r_keys : forall t, ok t -> NoDup (map pk t);
  r_exec : forall t l, ok t -> exec t l = Ok (filter (fun r => negb (gone t l r)) t);
  r_ok : forall t l, ok t -> ok (filter (fun r => negb (gone t l r)) t);
  r_gone : forall t l d r, ok t -> In r t -> gone t d r = false ->
    gone (filter (fun r => negb (gone t d r)) t) l r = gone t l r;
  r_begin : forall t l, ok t -> pre t l (begin (start l));
  r_pre : forall t l x, ok t -> pre t l x -> x_locks x = [] /\ exists c, x_prog x = Select c;
  r_go : forall t l x, ok t -> pre t l x ->
    (exists x', solo t x = Go x' /\ pre t l x') \/
    (exists sel, solo t x = Go (mkTx (Delete sel Commit) [] [] None) /\ agrees t l sel) \/
    (solo t x = Go (mkTx Commit [] [] None) /\ agrees t l (fun _ => false));
  r_other : forall t l d x, ok t -> pre t l x -> pre (filter (fun r => negb (gone t d r)) t) l x }.
Variable D : row_deletes.

Definition stages (t : list R) (sel : R -> bool) (x : tx R) : Prop :=
  (x_prog x = Delete sel Commit /\ x_writes x = [] /\ x_locks x = [] /\
   match x_found x with None => True | Some ks => forall r, In r t -> sel r = true -> In (pk r) ks end) \/
  (x_prog x = Commit /\ Forall no_new (x_writes x) /\ forall r, In r t -> after (x_writes x) r = if sel r then None else Some r).

Definition QR (t : list R) (l : list nat) (x : tx R) : Prop :=
  pre t l x \/ exists sel, agrees t l sel /\ stages t sel x.

Lemma QR_go t l x x' : ok t -> QR t l x -> solo t x = Go x' -> QR t l x'.
Proof.
  intros O [P|(sel & A & [(Ep & Ew & El & Fo)|(Ep & _)])].
  - destruct (r_go D t l x O P) as [(x2 & E & P2)|[(sel & E & A)|(E & A)]]; rewrite E; intros H; injection H as <-.
    + left. auto.
    + right. exists sel. split; auto. left. cbn. auto.
    + right. exists (fun _ => false). split; auto. right. cbn. auto.
  - unfold ConcModel.solo. rewrite Ep. unfold visible. rewrite Ew, El. cbn [fold_left]. destruct (x_found x) as [ks|] eqn:Ef.
    + cbn [goes]. intros H. injection H as <-. right. exists sel. split; auto. right. cbn [x_prog x_writes]. split; auto. split.
      * apply Forall_forall. intros w Hw. apply in_map_iff in Hw. destruct Hw as (r & <- & _). exact I.
      * intros r Hr. change ([] ++ map Gone (filter (fun r => sel r && existsb (Nat.eqb (pk r)) ks) t)) with (map Gone (filter (fun r => sel r && existsb (Nat.eqb (pk r)) ks) t)).
        rewrite after_gones; auto; [|apply (r_keys D); auto]. destruct (sel r) eqn:Es; auto.
        replace (existsb (Nat.eqb (pk r)) ks) with true; auto. symmetry. apply existsb_exists. exists (pk r). rewrite Nat.eqb_refl. auto.
    + intros H. injection H as <-. right. exists sel. split; auto. left. cbn. split; auto. split; auto. split; auto.
      intros r Hr Hs. apply in_map. apply filter_In. auto.
  - unfold ConcModel.solo. rewrite Ep. discriminate.
Qed.

Lemma QR_end t l x rows e : ok t -> QR t l x -> solo t x = End rows e ->
  exec t l = match e with None => Ok rows | Some e => Err e end.
Proof.
  intros O [P|(sel & A & [(Ep & Ew & El & Fo)|(Ep & NN & Aw)])].
  - destruct (r_go D t l x O P) as [(x2 & E & _)|[(sel & E & _)|(E & _)]]; rewrite E; discriminate.
  - unfold ConcModel.solo. rewrite Ep. destruct (x_found x); discriminate.
  - unfold ConcModel.solo. rewrite Ep. intros H. injection H as <- <-. rewrite (r_exec D) by auto. f_equal.
    unfold visible. rewrite fold_after by auto. rewrite <- (map_id (filter _ t)). rewrite <- (keep_some_some (fun r => r)).
    apply keep_some_ext. intros r Hr. rewrite Aw, (A r Hr) by auto. auto.
Qed.

Lemma QR_other t c d x y rows : ok t -> True -> QR t c x -> QR t d y ->
  (forall k, In k (x_locks x) -> ~ In k (x_locks y)) -> solo t y = End rows None -> QR rows c x.
Proof.
  intros O _ Qx Qy _ Es. assert (E := QR_end t d y rows None O Qy Es). rewrite (r_exec D) in E by auto. injection E as <-.
  destruct Qx as [P|(sel & A & Sg)]; [left; apply (r_other D); auto|right]. exists sel. split.
  - intros r Hr. apply filter_In in Hr. destruct Hr as [Hr B]. apply negb_true_iff in B.
    rewrite (r_gone D) by auto. apply A. auto.
  - destruct Sg as [(Ep & Ew & El & Fo)|(Ep & NN & Aw)]; [left|right].
    + split; auto. split; auto. split; auto. destruct (x_found x); auto. intros r Hr. apply filter_In in Hr. apply Fo. tauto.
    + split; auto. split; auto. intros r Hr. apply filter_In in Hr. apply Aw. tauto.
Qed.

Lemma rows_undisturbed : undisturbed R pk same (list nat) start exec ok (fun _ _ => True) QR (fun _ _ => True).
Proof.
  split.
  - intros t c O _. left. apply (r_begin D). auto.
  - apply QR_go.
  - apply QR_end.
  - intros t c x t' O _ E. rewrite (r_exec D) in E by auto. injection E as <-. apply (r_ok D). auto.
  - apply QR_other.
Qed.

Lemma rows_late t c x : ok t -> QR t c x ->
  match x_prog x with Insert _ _ => False | _ => True end /\ forall k, In k (x_locks x) -> x_prog x = Commit.
Proof.
  intros O [P|(sel & A & [(Ep & Ew & El & Fo)|(Ep & _)])].
  - destruct (r_pre D t c x O P) as (El & q & Eq). rewrite El, Eq. split; [exact I|intros k []].
  - rewrite Ep, El. split; [exact I|intros k []].
  - rewrite Ep. auto.
Qed.

Lemma rows_end t c d x y : ok t -> True -> QR t c x -> QR t d y -> waits same x y = true -> x_prog y = Commit.
Proof.
  intros O _ Qx Qy E. destruct (waits_held _ same x y (proj1 (rows_late _ _ _ O Qx)) E) as [k Hk].
  exact (proj2 (rows_late _ _ _ O Qy) k Hk).
Qed.

Theorem rows_serial calls t schedule : ok t ->
  let W := play (all_begin t (map start calls)) schedule in
  one_by_one exec calls t (map fst (w_log W)) = (w_rows W, w_log W) /\ NoDup (map fst (w_log W)) /\
  (finished W = true -> Permutation (map fst (w_log W)) (seq 0 (length calls))) /\
  exists schedule', finished (play W schedule') = true.
Proof.
  intros O W.
  destruct (locked_serial _ _ _ _ _ _ _ _ _ _ rows_undisturbed calls t (fun _ _ _ _ _ _ _ => I) O (fun _ _ => I) schedule) as (H1 & _ & H3 & H4).
  split; [exact H1|]. split; [exact H3|]. split; [exact H4|].
  exact (locked_finish _ _ _ _ _ _ _ _ _ _ rows_undisturbed calls t (fun _ _ _ _ _ _ _ => I) O (fun _ _ => I) rows_end schedule).
Qed.
End Rows.

(** The results of deletions one after the other. *)
Lemma one_by_one_deletes R (exec : list R -> list nat -> res (list R)) Sp (stores : list R -> Sp -> Prop) (drop : list nat -> Sp -> Sp) :
  (forall t F l, stores t F -> exists t', exec t l = Ok t' /\ stores t' (drop l F)) ->
  forall calls order t F, stores t F ->
  stores (fst (one_by_one exec calls t order)) (fold_left (fun F l => drop l F) (succeeded calls (snd (one_by_one exec calls t order))) F) /\
  Forall (fun e => snd e = None) (snd (one_by_one exec calls t order)).
Proof.
  intros H calls order. induction order as [|i order IH]; intros t F St; [cbn; auto|]. cbn [one_by_one].
  destruct (nth_error calls i) as [l|] eqn:En; auto.
  destruct (H t F l St) as (t' & E & S'). rewrite E.
  destruct (one_by_one exec calls t' order) as [u log] eqn:Eo. cbn.
  specialize (IH t' _ S'). rewrite Eo in IH. cbn in IH. rewrite En. cbn. split; [apply IH|]. constructor; [auto|apply IH].
Qed.
