(** The transactions of all calls on adjacency lists do alone what the calls do (C74). *)
From Coq Require Import String List Arith Lia Bool ZArith Permutation.
From Verif Require Import Prelude Forest SpecFacts SpecKids CommonModel Order History ConcModel ConcRun ConcAlone ConcCalls.
From Verif Require Import ALModel ALInv ALReads ALHist ConcALModel.
From Verif Require ConcAL ConcDelAL.
Import ListNotations.
Local Open Scope nat_scope.

Notation alone := (alone alrow a_pk al_same).

(** ** More fuel changes nothing *)
Lemma chain_more t : forall k k' r l, up_chain k t r = Ok l -> k <= k' -> up_chain k' t r = Ok l.
Proof.
  induction k as [|k IH]; intros k' r l E Hk; [discriminate|]. destruct k' as [|k']; [lia|]. cbn [up_chain] in *. destruct (a_parent r) as [p|]; auto.
  destruct (get_by_pk t p) as [q|]; [|discriminate]. cbn [bind] in *. destruct (up_chain k t q) as [l'|] eqn:E'; [|discriminate].
  rewrite (IH k' q l' E') by lia. auto.
Qed.

Lemma collect_more {A B} (f g : A -> res (list B)) l : (forall x y, In x l -> f x = Ok y -> g x = Ok y) -> forall z, collect f l = Ok z -> collect g l = Ok z.
Proof.
  induction l as [|x l IH]; intros H z; cbn [collect]; auto. destruct (f x) as [a|] eqn:E; [|discriminate]. rewrite (H x a (or_introl eq_refl) E). cbn [bind].
  destruct (collect f l) as [b|]; [|discriminate]. rewrite (IH (fun y v Hy => H y v (or_intror Hy)) b eq_refl). auto.
Qed.

Lemma tree_more o t m : forall k k' p nhc d l, tree_rec o k t p nhc d m = Ok l -> k <= k' -> tree_rec o k' t p nhc d m = Ok l.
Proof.
  induction k as [|k IH]; intros k' p nhc d l E Hk; [discriminate|]. destruct k' as [|k']; [lia|]. cbn [tree_rec] in *. destruct (too_deep m d); auto.
  revert E. apply collect_more. intros n y _. destruct (tree_rec o k t _ _ _ _) as [sub|] eqn:E; [|discriminate]. rewrite (IH k' _ _ _ sub E) by lia. auto.
Qed.

Section AL.
Variable fuel : nat.
Variable o : ordering.

Lemma descendant_more t r n b : length t + 2 <= fuel -> is_descendant_of o t r (fresh n) = Ok b -> al_descendant fuel o t r n = Ok b.
Proof.
  intros Hf. unfold is_descendant_of, get_descendants, get_tree, al_descendant, al_below, get_depth, count_depth, get_ancestors. cbn [fresh o_row o_depth].
  assert (X : forall d, (do l <- (do l <- (do l <- tree_rec o (S (S (length t))) t (Some (a_pk n)) (negb (is_leaf o t n)) (d + 1) None; Ok (mkAObj n (Some d) :: l)); Ok (tl l));
      Ok (existsb (fun x => a_pk (o_row x) =? a_pk r) l)) = Ok b ->
    (do l <- tree_rec o fuel t (Some (a_pk n)) (negb (is_leaf o t n)) (d + 1) None; Ok (existsb (fun x => a_pk (o_row x) =? a_pk r) l)) = Ok b).
  { intros d E. destruct (tree_rec o (S (S (length t))) _ _ _ _ _) as [l|] eqn:El; [|discriminate]. rewrite (tree_more _ _ _ _ fuel _ _ _ _ El) by lia. exact E. }
  destruct (a_parent n) as [p|].
  - destruct (up_chain (S (length t)) t n) as [l|] eqn:El; [|discriminate]. rewrite (chain_more _ _ fuel _ _ El) by lia. cbn [bind o_row]. intros E. apply X.
    destruct (tree_rec o (S (S (length t))) _ _ _ _ _); exact E.
  - cbn [bind o_row fresh]. intros E. apply X. destruct (tree_rec o (S (S (length t))) _ _ _ _ _); exact E.
Qed.

Lemma reads_alone A (f : al_table -> res A) c t : alone t (reads f c) = do a <- f t; alone t (c a).
Proof. unfold reads. cbn [ConcAlone.alone]. destruct (f t); reflexivity. Qed.
Lemma raise_alone A (r : res A) c t : alone t (or_raise r c) = do a <- r; alone t (c a).
Proof. destruct r; reflexivity. Qed.

Lemma order_alone t p target c : alone t (al_new_order o p target c) = do '(t1, s) <- get_new_sibling_order o t p target; alone t1 (c s).
Proof.
  unfold al_new_order, get_new_sibling_order. rewrite reads_alone. cbn [bind]. destruct (is_target_pos_the_last_sibling o t p target).
  - rewrite reads_alone. destruct (get_last_sibling o t target); reflexivity.
  - rewrite reads_alone. unfold al_hole, make_hole_and_get_sibling_order.
    destruct (match p with Left => _ | Right => _ | _ => _ end) as [[s z]|e]; [|reflexivity]. cbn [bind].
    destruct (or0 _ =? 0)%Z; [reflexivity|]. cbn [ConcAlone.alone bind]. reflexivity.
Qed.

Lemma insert_alone t r : ~ In (a_pk r) (map a_pk t) -> alone t (Insert r Commit) = Ok (save_row t r).
Proof.
  intros N. cbn [ConcAlone.alone]. rewrite (ConcAL.unused t r N). unfold save_row.
  replace (existsb (fun x => a_pk x =? a_pk r) t) with false; auto. symmetry. apply not_true_iff_false. intros E. apply existsb_exists in E.
  destruct E as (x & Hx & E). apply Nat.eqb_eq in E. apply N. rewrite <- E. apply in_map. auto.
Qed.
Lemma save_alone t r : In (a_pk r) (map a_pk t) -> alone t (al_save r) = Ok (save_row t r).
Proof.
  intros H. unfold al_save, save_row. cbn [ConcAlone.alone].
  replace (existsb (fun x => a_pk x =? a_pk r) t) with true; auto. symmetry. apply existsb_exists. apply in_map_iff in H.
  destruct H as (x & E & Hx). exists x. split; auto. apply Nat.eqb_eq. auto.
Qed.

Lemma new_alone t p x : ~ In (nid x) (map a_pk t) ->
  alone t (al_new o p x) = Ok (save_row t (mkAL (nid x) p (if is_sorted o then 0%Z else next_sib t p) (ndata x))).
Proof.
  intros N. unfold al_new. destruct (is_sorted o).
  - apply insert_alone. auto.
  - rewrite reads_alone. cbn [bind]. apply insert_alone. auto.
Qed.

Lemma order_pks t p target t1 s : get_new_sibling_order o t p target = Ok (t1, s) -> map a_pk t1 = map a_pk t.
Proof.
  unfold get_new_sibling_order, make_hole_and_get_sibling_order. destruct (is_target_pos_the_last_sibling o t p target).
  - destruct (get_last_sibling o t target); [|discriminate]. intros E. injection E as <- _. auto.
  - destruct (match p with Left => _ | Right => _ | _ => _ end) as [[sb z]|e]; [|discriminate]. cbn [bind].
    destruct (or0 _ =? 0)%Z; intros E; injection E as <- _; auto. rewrite map_map. apply map_ext. intros r. destruct (_ && _); auto.
Qed.

(** A target of a move is a node of the table. *)
Lemma target_in t nd target p tg parent p' so : In target t -> move_target o t nd target p = Ok (tg, parent, p', so) -> In tg t.
Proof.
  intros Ht. unfold move_target. assert (X : forall c, get_last_child o t target = Some c -> In c t).
  { intros c E. apply last_opt_Some in E. destruct E as [l E]. assert (H : In c (get_children o t target)) by (rewrite E; apply in_or_app; right; left; auto).
    apply (Permutation_in _ (isort_perm _ _)) in H. apply filter_In in H. tauto. }
  destruct p; try (intros E; injection E as <- _ _ _; auto; fail);
    (destruct (a_pk nd =? a_pk target); [discriminate|]); (destruct (negb (is_leaf o t target));
      [destruct (get_last_child o t target) as [c|]; [|discriminate]|]); intros E; injection E as <- _ _ _; auto.
Qed.

Definition all_ready (t : al_table) (c : call) : Prop := (forall i, In i (new_ids c) -> ~ In i (map a_pk t)) /\ (o <> [] -> call_values o c).

Lemma collect_alone t F l : stores o t F -> forall n s K, incl (map a_pk t) K -> NoDup s -> incl s K -> length K <= n + length s ->
  (forall r, In r t -> In (a_pk r) s -> ConcDelAL.dn t l (a_pk r)) -> (forall r, In r t -> In (a_pk r) l -> In (a_pk r) s) ->
  exists s', alone t (al_collect n s ConcDelAL.fin) = alone t (ConcDelAL.fin s') /\ forall r, In r t -> in_pks s' (a_pk r) = ConcDelAL.al_gone t l r.
Proof.
  intros St. assert (Key := ConcDelAL.al_keys o t F St).
  induction n as [|n IH]; intros s K HK Ns Hs Hn Ha Hb; cbn [al_collect ConcAlone.alone];
    set (sel := fun r => negb (in_pks s (a_pk r)) && match a_parent r with Some p => in_pks s p | None => false end);
    (destruct (map a_pk (filter sel t)) as [|k new] eqn:En;
     [exists s; split; [reflexivity|]; intros r Hr; apply eq_true_iff_eq; rewrite in_pks_spec, (ConcDelAL.gone_dn o t F l r St Hr); split; auto;
      intros Hd; clear Hr; remember (a_pk r) as k eqn:Ek; clear r Ek; induction Hd as [r Hr Hl|r p Hr Ep Hd IHd]; auto;
      destruct (in_dec Nat.eq_dec (a_pk r) s) as [H|H]; auto; exfalso;
      assert (X : In (a_pk r) (map a_pk (filter sel t)));
      [apply in_map, filter_In; split; auto; unfold sel; rewrite Ep, (proj2 (in_pks_spec s p) IHd);
       replace (in_pks s (a_pk r)) with false; auto; symmetry; apply not_true_iff_false; rewrite in_pks_spec; auto
      |rewrite En in X; destruct X]|]);
    (assert (New : forall i, In i (k :: new) -> ~ In i s /\ ConcDelAL.dn t l i /\ In i (map a_pk t));
     [intros i Hi; rewrite <- En in Hi; apply in_map_iff in Hi; destruct Hi as (r & <- & Hr); apply filter_In in Hr; destruct Hr as [Hr E];
      unfold sel in E; apply andb_true_iff in E; destruct E as [E1 E2]; apply negb_true_iff, not_true_iff_false in E1;
      rewrite in_pks_spec in E1; split; auto; split; [|apply in_map; auto];
      destruct (a_parent r) as [p|] eqn:Ep; [|discriminate]; apply in_pks_spec in E2; apply (ConcDelAL.dn_kid t l r p); auto;
      destruct (ConcDelAL.parent_row o t F r p St Hr Ep) as (q & Hq & <-); apply Ha; auto|]).
  - exfalso. destruct (New k (or_introl eq_refl)) as (N1 & _ & N3). apply N1. apply (NoDup_length_incl Ns (l' := K)); auto.
  - apply (IH _ K); auto.
    + assert (Nn : NoDup (k :: new)) by (rewrite <- En; apply ConcDelAL.nodup_filter_keys; auto).
      apply NoDup_app_iff. split; auto. split; auto. intros i Hi Hi'. apply (New i) in Hi'. tauto.
    + intros i Hi. apply in_app_iff in Hi. destruct Hi as [Hi|Hi]; auto. apply HK. apply (New i). auto.
    + rewrite app_length. cbn. lia.
    + intros r Hr Hi. apply in_app_iff in Hi. destruct Hi as [Hi|Hi]; auto. apply (New _ Hi).
    + intros r Hr Hi. apply in_app_iff. auto.
Qed.

Lemma delete_alone t F l : stores o t F -> length t <= fuel -> alone t (al_delete_by fuel l) = al_exec o t (CDelete l).
Proof.
  intros St Hf. unfold al_delete_by. cbn [ConcAlone.alone]. change (fun r : alrow => existsb (Nat.eqb (a_pk r)) l) with (ConcDelAL.al_named l).
  destruct (collect_alone t F l St fuel (map a_pk (filter (ConcDelAL.al_named l) t)) (map a_pk t)) as (s & E & A).
  - apply incl_refl.
  - apply ConcDelAL.nodup_filter_keys. eapply ConcDelAL.al_keys; eauto.
  - intros k Hk. apply in_map_iff in Hk. destruct Hk as (r & <- & Hr). apply in_map. apply filter_In in Hr. tauto.
  - rewrite map_length. lia.
  - intros r Hr H. apply in_map_iff in H. destruct H as (q & E & Hq). apply filter_In in Hq. destruct Hq as [Hq Hn].
    rewrite <- E. apply ConcDelAL.dn_sel; auto. apply ConcDelAL.named_iff. auto.
  - intros r Hr H. apply in_map, filter_In. split; auto. apply ConcDelAL.named_iff. auto.
  - change (fun s : list nat => Delete (fun r => in_pks s (a_pk r)) Commit) with ConcDelAL.fin. rewrite E. unfold ConcDelAL.fin. cbn [ConcAlone.alone al_exec].
    f_equal. apply filter_ext_in. intros r Hr. rewrite (A r Hr). reflexivity.
Qed.

Lemma move_alone t F n q p : stores o t F -> length t + 2 <= fuel -> alone t (al_move fuel o n q p) = al_exec o t (CMove n q p).
Proof.
  intros St Hf. unfold al_move, al_exec. rewrite reads_alone. destruct (get_by_pk t n) as [nd|e] eqn:En; [|reflexivity]. cbn [bind].
  rewrite reads_alone. destruct (get_by_pk t q) as [target|e] eqn:Eq; [|reflexivity]. cbn [bind]. apply al_get in En. apply al_get in Eq. destruct En as [En Hn], Eq as [Eq Hq].
  unfold move. rewrite raise_alone. destruct (prepare_pos_move (is_sorted o) p) as [P|e]; [|reflexivity]. cbn [bind fresh o_row].
  rewrite reads_alone. destruct (move_target o t nd target P) as [[[[tg parent] P'] so]|e] eqn:Em; [|reflexivity]. cbn [bind].
  assert (Ht := target_in _ _ _ _ _ _ _ _ Hq Em). assert (St' := St). destruct St' as (W & _ & so' & Fit & _).
  destruct (is_descendant_ok o so' t F (fresh nd) tg W Fit Hn Logic.I Ht) as (b & Eb & _). rewrite reads_alone, (descendant_more t tg nd b Hf Eb), Eb. cbn [bind].
  destruct b; [reflexivity|].
  assert (G : exists d nd', get_depth t (fresh nd) false = Ok (d, nd') /\ o_row nd' = nd).
  { revert Eb. clear. unfold is_descendant_of, get_descendants, get_tree.
    destruct (get_depth t (fresh nd) false) as [[d' nd']|e] eqn:E; cbn [bind]; [|discriminate]. intros _. exists d', nd'. split; auto.
    unfold get_depth, fresh in E. cbn [o_row o_depth] in E. destruct (a_parent nd).
    - destruct (count_depth t nd); [|discriminate]. cbn [bind] in E. injection E as <- <-. auto.
    - injection E as <- <-. auto. }
  destruct G as (d & nd' & -> & Eo). cbn [bind]. rewrite reads_alone. cbn [bind]. rewrite Eo.
  destruct (move_is_noop o t nd tg P'); [reflexivity|].
  assert (Sv : forall t1 up s, map a_pk t1 = map a_pk t -> alone t1 (al_save (mkAL (a_pk nd) up s (a_data nd))) = Ok (save_row t1 (mkAL (a_pk nd) up s (a_data nd)))).
  { intros t1 up s E. apply save_alone. cbn [a_pk]. rewrite E. apply in_map. auto. }
  destruct P'; cbv zeta; cbn [bind]; try (rewrite Sv by auto; reflexivity);
    (destruct so as [s|]; [rewrite Sv by auto; reflexivity|]); rewrite order_alone;
    (destruct (get_new_sibling_order o t _ tg) as [[t1 s]|e] eqn:Eo'; [|reflexivity]); cbn [bind]; rewrite Sv by (eapply order_pks; eauto); reflexivity.
Qed.

Theorem all_same_call t F c : stores o t F -> all_ready t c -> length t + 2 <= fuel -> alone t (al_tx fuel o c) = al_exec o t c.
Proof.
  intros St [N _] Hf. destruct c as [x|k x|k p x|n q p|l]; cbn [al_tx].
  - rewrite new_alone by (apply N; left; auto). reflexivity.
  - unfold al_add_child_by, al_exec. rewrite reads_alone. destruct (get_by_pk t k) as [r|]; [|reflexivity]. cbn [bind]. rewrite new_alone by (apply N; left; auto). reflexivity.
  - unfold al_add_sibling, al_exec, add_sibling. rewrite reads_alone. destruct (get_by_pk t k) as [r|]; [|reflexivity]. cbn [bind].
    rewrite raise_alone. destruct (prepare_pos_add (is_sorted o) p) as [P|e]; [|reflexivity]. cbn [bind].
    assert (Nx : ~ In (nid x) (map a_pk t)) by (apply N; left; auto). destruct (is_sorted o).
    + rewrite insert_alone by auto. reflexivity.
    + rewrite order_alone. destruct (get_new_sibling_order o t P r) as [[t1 s]|e] eqn:Eo; [|reflexivity]. cbn [bind].
      rewrite insert_alone; [reflexivity|]. cbn [a_pk]. rewrite (order_pks _ _ _ _ _ Eo). auto.
  - apply (move_alone t F); auto.
  - apply (delete_alone t F); auto. lia.
Qed.

Lemma ready_fresh t F c : stores o t F -> all_ready t c -> fresh_call F c.
Proof. intros St [N _] i Hi H. apply (N i Hi). apply (ConcAL.ids_iff o t F i St). auto. Qed.

Lemma exec_result t F c t' : stores o t F -> all_ready t c -> al_exec o t c = Ok t' -> stores o t' (sp_call o F c).
Proof.
  intros St Rd E. assert (A := al_call_ok o t F c St (ready_fresh t F c St Rd) (proj2 Rd)). unfold agree in A. rewrite E in A.
  destruct (sp_exec o F c) as [G|] eqn:Eg; [|destruct A]. apply sp_exec_ok in Eg. subst G. auto.
Qed.

Lemma exec_ids t F c t' i : stores o t F -> all_ready t c -> al_exec o t c = Ok t' -> In i (map a_pk t') -> In i (map a_pk t) \/ In i (new_ids c).
Proof.
  intros St Rd E H. assert (St' := exec_result t F c t' St Rd E). apply (ConcAL.ids_iff o t' _ i St') in H. apply sp_call_ids in H.
  destruct H as [H|H]; auto. left. apply (ConcAL.ids_iff o t F i St). auto.
Qed.

Lemma exec_stays_ready t F c d t' : stores o t F -> all_ready t c -> all_ready t d -> new_apart c d -> al_exec o t c = Ok t' -> all_ready t' d.
Proof.
  intros St Rc [Nd Vd] A E. split; auto. intros i Hi H. destruct (exec_ids t F c t' i St Rc E H) as [H1|H1]; [apply (Nd i Hi H1)|apply (A i H1 Hi)].
Qed.

(** The table has room: its nodes are among those of the beginning and the new ones. *)
Definition room (known : list nat) (t : al_table) : Prop := incl (map a_pk t) known.
Lemma room_length known t F : stores o t F -> room known t -> length t <= length known.
Proof. intros St H. rewrite <- (map_length a_pk t). apply NoDup_incl_length; auto. eapply ConcDelAL.al_keys; eauto. Qed.
Lemma exec_room known t F c t' : stores o t F -> all_ready t c -> incl (new_ids c) known -> room known t -> al_exec o t c = Ok t' -> room known t'.
Proof. intros St Rc Hc H E i Hi. destruct (exec_ids t F c t' i St Rc E Hi); auto. Qed.
End AL.
