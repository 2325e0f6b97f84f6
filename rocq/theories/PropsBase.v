(** Theorems about the storage independent code: number conversion (C01, C02),
    positions (C34), the sorted filter (C35, C15) and the arguments of the add
    calls (C43). *)
From Coq Require Import String List Arith Lia Bool ZArith Sorted.
From Verif Require Import Prelude Forest SpecFacts SpecSane NumConv PathTab CommonModel Order History SpecRun MPModel MPStep Fixture.
Import ListNotations.
Local Open Scope string_scope.
Local Open Scope list_scope.

(** ** C01: number / string conversion *)
Theorem C01_roundtrip (alphabet : list char) (n : nat) : NoDup alphabet -> 2 <= length alphabet ->
  exists s, int2str alphabet (Z.of_nat n) = Ok s /\ str2int alphabet s = Ok n /\
    s <> [] /\ Forall (fun c => In c alphabet) s /\
    (length s = 1 \/ hd_error s <> hd_error alphabet).
Proof.
  intros ND L. destruct (digits_spec _ n L) as (E1 & E2 & E3 & E4 & E5).
  exists (map (fun d => nth d alphabet 0) (digits (length alphabet) n)).
  assert (E : int2str alphabet (Z.of_nat n) = Ok (map (fun d => nth d alphabet 0) (digits (length alphabet) n))).
  { unfold int2str. destruct (Z.ltb_spec (Z.of_nat n) 0); [lia|]. rewrite Nat2Z.id. auto. }
  split; [auto|]. split.
  { destruct (str_roundtrip alphabet n ND L) as (s & Es & Er). congruence. }
  split; [|split].
  - intros H. apply map_eq_nil in H. tauto.
  - apply Forall_forall. intros c Hc. apply in_map_iff in Hc. destruct Hc as (d & <- & Hd).
    apply nth_In. rewrite Forall_forall in E2. auto.
  - destruct n as [|n].
    + left. rewrite E4 by auto. auto.
    + right. specialize (E5 (Nat.lt_0_succ n)). destruct (digits (length alphabet) (S n)) as [|d ds]; [tauto|].
      cbn in *. destruct alphabet as [|c alphabet]; [cbn in L; lia|]. cbn [hd_error]. intros H.
      injection H as H. inversion E2 as [|d' ds' Hd Hds E']; subst d' ds'. destruct d as [|d]; [tauto|]. 
      apply NoDup_cons_iff in ND. destruct ND as (Nc & _). apply Nc. cbn in H. rewrite <- H. apply nth_In. cbn in *. lia.
Qed.

Theorem C01_roundtrip_back (alphabet s : list char) (n : nat) : NoDup alphabet -> 2 <= length alphabet ->
  str2int alphabet s = Ok n -> s <> [] -> (length s = 1 \/ hd_error s <> hd_error alphabet) ->
  int2str alphabet (Z.of_nat n) = Ok s.
Proof. intros ND L E N C. apply str_roundtrip_inv; auto. split; auto. Qed.

(** Rejections: duplicated alphabets, negative numbers, foreign characters. *)
Theorem C01_rejects (alphabet s : list char) (z : Z) :
  (numconv_init alphabet = Ok alphabet <-> NoDup alphabet) /\
  (numconv_init alphabet = Err ValueError <-> ~ NoDup alphabet) /\
  (int2str alphabet z = Err ValueError <-> (z < 0)%Z) /\
  (str2int alphabet s = Err ValueError <-> exists c, In c s /\ ~ In c alphabet).
Proof.
  assert (I := init_ok_iff alphabet). split; [exact I|]. split; [|split].
  - rewrite <- I. unfold numconv_init. destruct (Nat.eqb _ _); split; intros H; try congruence; try tauto.
  - unfold int2str. destruct (Z.ltb_spec z 0); split; intros H'; try lia; auto; discriminate.
  - unfold str2int. generalize 0 as acc. induction s as [|c s IH]; intros acc; cbn [str2int_from].
    + split; [discriminate|]. intros (c & [] & _).
    + destruct (char_index alphabet c) as [d|] eqn:E.
      * rewrite IH. assert (Hc : In c alphabet).
        { destruct (in_dec Nat.eq_dec c alphabet) as [|Hn]; auto.
          apply (proj2 (char_index_from_none alphabet c 0)) in Hn. unfold char_index in E. congruence. }
        split; intros (x & Hx & Nx).
        -- exists x. cbn. auto.
        -- exists x. destruct Hx as [<-|Hx]; tauto.
      * split; auto. intros _. exists c. split; [cbn; auto|]. apply (char_index_from_none alphabet c 0). auto.
Qed.

(** A one-character alphabet never terminates: no number of rounds is enough. *)
Theorem C01_one_character_refuted : exists alphabet : list char, NoDup alphabet /\
  exists n, forall fuel, int2str_loop (length alphabet) fuel n [] = None.
Proof.
  exists [7]. split; [repeat constructor; intros []|]. exists 3. intros fuel. apply int2str_radix1. lia.
Qed.

(** "0123456789ABCDEF" by character code: 255 is "FF". *)
Definition hexa : list char := [48;49;50;51;52;53;54;55;56;57;65;66;67;68;69;70].
Example C01_example : NoDup hexa /\ 2 <= length hexa /\ int2str hexa 255 = Ok [70; 70] /\
  str2int hexa [70; 70] = Ok 255 /\ int2str hexa 0 = Ok [48] /\
  str2int hexa [70; 103] = Err ValueError /\ int2str hexa (-1) = Err ValueError /\
  numconv_init [48; 49; 48] = Err ValueError.
Proof. split; [apply nodup_b; reflexivity|]. vm_compute. repeat split; auto. repeat constructor. Qed.

(** ** C02: fixed width steps *)
Theorem C02_steps (cfg : mp_cfg) (p : path) (d j k : nat) : 2 <= radix cfg -> 1 <= steplen cfg ->
  j < radix cfg ^ steplen cfg -> k < radix cfg ^ steplen cfg ->
  let enc n := get_path cfg p d n in
  let base := firstn ((d - 1) * steplen cfg) p in
  (exists e, enc k = base ++ e /\ length e = steplen cfg /\ Forall (fun c => c < radix cfg) e) /\
  (enc j = enc k -> j = k) /\
  plt (enc j) (enc k) = (j <? k)%nat.
Proof.
  intros R2 S1 Hj Hk enc base.
  assert (E : forall n, enc n = base ++ seg cfg n) by (intros n; reflexivity).
  split; [|split].
  - exists (seg cfg k). split; [apply E|]. split; [apply seg_len; auto|apply seg_digits; auto].
  - rewrite !E. intros H. apply app_inv_head in H. apply (seg_inj cfg R2); auto.
  - rewrite !E. rewrite <- (plt_seg cfg R2 S1 j k Hj Hk). unfold plt. clear.
    induction base as [|c b IH]; auto. cbn [app llt]. rewrite Nat.ltb_irrefl. auto.
Qed.

(** For an alphabet listed in the order of the character codes (collation order),
    comparing strings of characters is comparing lists of alphabet indexes. *)
Theorem C02_collation (alphabet : list char) (p q : path) : StronglySorted lt alphabet ->
  Forall (fun d => d < length alphabet) p -> Forall (fun d => d < length alphabet) q ->
  let text := map (fun d => nth d alphabet 0) in
  llt Nat.ltb (text p) (text q) = plt p q.
Proof.
  intros So Hp Hq text. change char with nat in *. assert (M : forall i j, i < length alphabet -> j < length alphabet ->
    (nth i alphabet 0 <? nth j alphabet 0)%nat = (i <? j)%nat).
  { clear p q Hp Hq text. induction So as [|c l So IH F]; cbn [length]; intros i j Hi Hj; [lia|].
    rewrite Forall_forall in F. destruct i as [|i], j as [|j]; cbn [nth].
    - rewrite !Nat.ltb_irrefl. auto.
    - assert (X : c < nth j l 0). { apply F, nth_In. lia. } apply Nat.ltb_lt in X. rewrite X. auto.
    - assert (X : c < nth i l 0) by (apply F, nth_In; lia). apply Nat.ltb_ge. lia.
    - rewrite IH by lia. auto. }
  revert q Hq. induction Hp as [|i p Hi Hp IH]; intros q Hq; destruct Hq as [|j q Hj Hq]; auto.
  unfold plt in *. cbn [text map llt]. rewrite !M by auto. rewrite <- IH by auto. auto.
Qed.

(** Radix 16, width 3: steps 9, 10 and 255 after "0A1". *)
Example C02_example :
  let c := mkCfg 16 3 30 [] in
  get_path c [0;10;1] 2 9 = [0;10;1; 0;0;9] /\ get_path c [0;10;1] 2 255 = [0;10;1; 0;15;15] /\
  plt (get_path c [0;10;1] 2 9) (get_path c [0;10;1] 2 255) = true /\ StronglySorted lt hexa /\
  llt Nat.ltb [48;65] [48;66] = true.
Proof. vm_compute. repeat split; auto. repeat constructor. Qed.

(** ** C34: positions *)

(** The documentation (docs/source/api.rst, models.py docstrings): the positions of
    unsorted and of sorted models. *)
Definition documented (sorted moving : bool) : list (string * pos) :=
  if sorted then ("sorted-sibling", SortedSibling) :: (if moving then [("sorted-child", SortedChild)] else [])
  else [("first-sibling", FirstSibling); ("left", Left); ("right", Right); ("last-sibling", LastSibling)] ++
       (if moving then [("first-child", FirstChild); ("last-child", LastChild)] else []).

Definition documented_default (sorted : bool) : string := if sorted then "sorted-sibling" else "last-sibling".

Fixpoint lookup (s : string) (l : list (string * pos)) : option pos :=
  match l with [] => None | (k, v) :: l => if String.eqb s k then Some v else lookup s l end.

(** Exactly the documented positions are accepted; the sorted positions of unsorted
    models are MissingNodeOrderBy; anything else is InvalidPosition. *)
Definition documented_pos (sorted moving : bool) (p : option string) : res pos :=
  let s := match p with Some s => s | None => documented_default sorted end in
  match lookup s (documented sorted moving) with
  | Some P => Ok P
  | None => match lookup s (documented true moving) with
            | Some _ => Err MissingNodeOrderBy
            | None => Err InvalidPosition
            end
  end.

Theorem C34_positions (sorted : bool) (p : option string) :
  prepare_pos_add sorted p = documented_pos sorted false p /\
  prepare_pos_move sorted p = documented_pos sorted true p.
Proof.
  unfold prepare_pos_add, prepare_pos_move, prepare_pos_var, documented_pos, valid_pos_for_sorted_move, valid_pos_for_move,
    valid_pos_for_add_sibling, valid_pos_for_sorted_add_sibling, str_in, documented_default, documented.
  set (s := match p with Some s => s | None => _ end). clearbody s. clear p.
  destruct (String.eqb_spec s "first-sibling") as [->|N1]; [destruct sorted; split; reflexivity|].
  destruct (String.eqb_spec s "left") as [->|N2]; [destruct sorted; split; reflexivity|].
  destruct (String.eqb_spec s "right") as [->|N3]; [destruct sorted; split; reflexivity|].
  destruct (String.eqb_spec s "last-sibling") as [->|N4]; [destruct sorted; split; reflexivity|].
  destruct (String.eqb_spec s "sorted-sibling") as [->|N5]; [destruct sorted; split; reflexivity|].
  destruct (String.eqb_spec s "first-child") as [->|N6]; [destruct sorted; split; reflexivity|].
  destruct (String.eqb_spec s "last-child") as [->|N7]; [destruct sorted; split; reflexivity|].
  destruct (String.eqb_spec s "sorted-child") as [->|N8]; [destruct sorted; split; reflexivity|].
  apply String.eqb_neq in N1, N2, N3, N4, N5, N6, N7, N8.
  destruct sorted; cbn [app existsb lookup negb andb orb]; rewrite ?N1, ?N2, ?N3, ?N4, ?N5, ?N6, ?N7, ?N8; split; reflexivity.
Qed.

Example C34_example :
  prepare_pos_add false None = Ok LastSibling /\ prepare_pos_move true None = Ok SortedSibling /\
  prepare_pos_add false (Some "first-child") = Err InvalidPosition /\
  prepare_pos_move false (Some "first-child") = Ok FirstChild /\
  prepare_pos_move true (Some "first-child") = Err InvalidPosition /\
  prepare_pos_move false (Some "sorted-child") = Err MissingNodeOrderBy /\
  prepare_pos_add false (Some "sorted-child") = Err InvalidPosition /\
  prepare_pos_move false (Some "nowhere") = Err InvalidPosition.
Proof. vm_compute. repeat split. Qed.

(** ** C35: the sorted filter *)
Theorem C35_filter (o : ordering) (x y : fields) :
  sorted_after o x y = (all_null o x || lexlt o x y)%bool.
Proof. exact (sorted_after_lex o x y). Qed.

(** By name ascending, then by rank descending. *)
Example C35_example :
  let o := [(0, false); (1, true)] in
  sorted_after o [Some 5; Some 1]%Z [Some 5; Some 0]%Z = true /\
  sorted_after o [Some 5; Some 1]%Z [Some 5; Some 1]%Z = false /\
  sorted_after o [Some 5; Some 1]%Z [Some 6; Some 9]%Z = true /\
  sorted_after o [None; Some 1]%Z [Some 5; Some 0]%Z = true /\
  sorted_after o [None; None] [Some 5; Some 0]%Z = true.
Proof. vm_compute. repeat split. Qed.

(** ** C15: sorted trees stay sorted *)

(** The specification machine, which the implementations agree with (C03, C16, C25),
    keeps every list of siblings sorted, whatever the calls. *)
Theorem C15_sorted_histories (o : ordering) (cs : list call) :
  o <> [] -> Forall (call_values o) cs -> NoDup (flat_map new_ids cs) ->
  let F := fst (run (sp_exec o) Nil cs) in
  forall q L, kid_list q F = Some L ->
    StronglySorted (fun a b => lexlt o (ndata b) (ndata a) = false) L /\
    Forall (fun a => has_values o (ndata a)) L.
Proof.
  intros No V ND F q L E. destruct (run_wf o cs Nil) as (W & O); auto.
  - constructor.
  - intros _. split; constructor.
  - destruct (O No) as (So & Va). unfold kid_list in E.
    destruct (kids_of q (fst (run (sp_exec o) Nil cs))) as [l|] eqn:El; unfold F in E; rewrite El in E; [|discriminate].
    injection E as <-. destruct (sorted_kids o q _ l So Va El) as (S1 & V1).
    split; [apply (roots_sorted o l S1)|apply (roots_values o l V1)].
Qed.

Lemma split_greater o x L1 L2 : o <> [] -> has_values o x ->
  StronglySorted (not_after o) (L1 ++ L2) -> Forall (fun a => has_values o (ndata a)) (L1 ++ L2) ->
  ins_split (PSorted (gt_of o x)) L1 L2 ->
  (forall y, In y L1 -> lexlt o x (ndata y) = false) /\ (forall y, In y L2 -> lexlt o x (ndata y) = true).
Proof.
  intros No Hx S V (H1 & H2). split.
  - intros y Hy. apply H1 in Hy. unfold gt_of in Hy. rewrite sorted_after_values in Hy; auto.
  - intros y Hy. destruct L2 as [|a L2]; [destruct Hy|].
    assert (Ha := H2 a L2 eq_refl). unfold gt_of in Ha. rewrite sorted_after_values in Ha; auto.
    destruct Hy as [<-|Hy]; auto. destruct (lexlt o x (ndata y)) eqn:E; auto.
    assert (Sa : not_after o a y).
    { clear - S Hy. induction L1 as [|b L1 IH]; cbn in S; apply StronglySorted_inv in S; destruct S as (S & F); auto.
      rewrite Forall_forall in F. auto. }
    rewrite Forall_forall in V. unfold not_after in Sa.
    rewrite (lexlt_trans_false o (ndata a) (ndata y) x) in Ha; auto; apply V, in_app_iff; cbn; auto.
Qed.

(** Every add puts the new node after all siblings not greater than it (equal ones
    included) and before all greater ones; nothing else changes. *)
Theorem C15_sorted_add (o : ordering) (F F' : forest node) (c : call) (x : node) :
  o <> [] -> wf_ids F -> ordered o F -> fresh_call F c -> call_values o c ->
  (c = CAddRoot x \/ (exists p, c = CAddChild p x) \/ (exists t p, c = CAddSibling t p x)) ->
  sp_exec o F c = Ok F' ->
  exists up L1 L2, added F F' up x L1 L2 /\
    (forall y, In y L1 -> lexlt o (ndata x) (ndata y) = false) /\
    (forall y, In y L2 -> lexlt o (ndata x) (ndata y) = true).
Proof.
  intros No W O Fr V Hc E. destruct (O No) as (So & Va).
  assert (Fin : forall up L1 L2, has_values o (ndata x) -> added F F' up x L1 L2 -> ins_split (PSorted (gt_of o (ndata x))) L1 L2 ->
    exists up L1 L2, added F F' up x L1 L2 /\
    (forall y, In y L1 -> lexlt o (ndata x) (ndata y) = false) /\
    (forall y, In y L2 -> lexlt o (ndata x) (ndata y) = true)).
  { intros up L1 L2 Hx A Sp. exists up, L1, L2. split; auto. assert (B := ad_before _ _ _ _ _ _ A).
    unfold kid_list in B. destruct (kids_of up F) as [l|] eqn:El; [|discriminate]. injection B as B.
    destruct (sorted_kids o up F l So Va El) as (S1 & V1).
    apply split_greater; auto; rewrite <- B; [apply roots_sorted|apply roots_values]; auto. }
  assert (Hso : sorts o = true) by (apply sorts_true; auto).
  assert (Fx : ~ In (nid x) (ids F)). { destruct Hc as [->|[(p & ->)|(t & p & ->)]]; apply Fr; cbn; auto. }
  assert (Hx : has_values o (ndata x)). { destruct Hc as [->|[(p & ->)|(t & p & ->)]]; exact V. }
  assert (E' := E). apply sp_exec_ok in E'.
  destruct Hc as [->|[(p & ->)|(t & p & ->)]]; cbn [sp_exec sp_call] in *; unfold gt_opt in *; rewrite Hso in *.
  - destruct (add_root_sane (Some (gt_of o (ndata x))) x F W Fx) as (L1 & L2 & A & Sp). rewrite <- E' in A. eauto.
  - destruct (has p F) eqn:Hp; [|discriminate]. apply has_spec in Hp.
    destruct (add_child_sane (Some (gt_of o (ndata x))) p x F W Hp Fx) as (L1 & L2 & A & Sp). rewrite <- E' in A. eauto.
  - destruct (has t F) eqn:Ht; [|discriminate]. apply has_spec in Ht.
    destruct (prepare_pos_add true p) as [P|e] eqn:Ep; [|discriminate].
    apply prepare_add_sorted in Ep. subst P.
    destruct (add_sibling_sane t SortedSibling (gt_of o (ndata x)) x F W Ht Fx I) as (up & L1 & L2 & _ & A & Sp).
    rewrite <- E' in A. eauto.
Qed.

Example C15_example : so <> [] /\ Forall (call_values so) so_calls /\ NoDup (flat_map new_ids so_calls) /\
  kid_list (Some 6) (fst (run (sp_exec so) Nil so_calls)) = Some [nd 1 10; nd 3 5] /\
  ordered so so_F /\ sp_exec so so_F (CAddChild 1 (nd 11 7)) =
    Ok (Cons (nd 2 20) Nil (Cons (nd 6 15) (Cons (nd 1 10) (Cons (nd 4 7) Nil (Cons (nd 11 7) Nil (Cons (nd 5 6) Nil Nil)))
       (Cons (nd 3 5) Nil Nil)) Nil)).
Proof.
  split; [discriminate|]. split; [apply so_values|]. split; [apply so_new|]. split; [vm_compute; auto|].
  split; [|vm_compute; auto].
  destruct (run_wf so so_calls Nil) as (_ & O).
  - constructor.
  - intros _. split; constructor.
  - apply so_new.
  - auto.
  - intros _. apply so_values.
  - rewrite so_calls_F in O. exact O.
Qed.

(** ** C43: arguments of the add calls *)
Theorem C43_create_args (model : list (nat * option Z) -> fields) (inst : option instance) (k : kwargs) :
  (* accepted: an unsaved instance without (or with empty) create_kwargs, or create_kwargs alone *)
  ((exists d, new_object model inst k = Ok d) <->
     (exists i, inst = Some i /\ in_adding i = true /\ (k = None \/ k = Some [])) \/ (inst = None /\ k <> None)) /\
  (forall i, inst = Some i -> forall d, new_object model inst k = Ok d -> d = in_data i) /\
  (forall kw, inst = None -> k = Some kw -> new_object model inst k = Ok (model kw)) /\
  (* everything else *)
  (new_object model inst k = Err ValueError <->
     (inst <> None /\ exists a kw, k = Some (a :: kw)) \/ (inst = None /\ k = None)) /\
  (new_object model inst k = Err NodeAlreadySaved <->
     exists i, inst = Some i /\ in_adding i = false /\ (k = None \/ k = Some [])).
Proof.
  destruct inst as [[[|] dat]|], k as [[|a kw]|]; unfold new_object; cbn;
  repeat split; intros; repeat match goal with
  | H : exists _, _ |- _ => destruct H
  | H : _ /\ _ |- _ => destruct H
  | H : _ \/ _ |- _ => destruct H
  | H : Some _ = Some _ |- _ => injection H; clear H; intros; subst
  | H : Ok _ = Ok _ |- _ => injection H; clear H; intros; subst
  end; try discriminate; try congruence; cbn in *; try discriminate; eauto 10;
  try (right; split; [reflexivity|discriminate]); try (left; split; [discriminate|]; eauto).
Qed.

Example C43_example : new_object (map snd) (Some (mkInst true [Some 5%Z])) (Some []) = Ok [Some 5%Z] /\
  new_object (map snd) None (Some [(0, Some 7%Z)]) = Ok [Some 7%Z] /\
  new_object (map snd) (Some (mkInst false [])) None = Err NodeAlreadySaved /\
  new_object (map snd) (Some (mkInst true [])) (Some [(0, None)]) = Err ValueError /\
  new_object (map snd) None None = Err ValueError.
Proof. repeat split. Qed.

(** ** The specification itself *)
Theorem Spec_forest_is_its_child_lists (F G : forest node) : wf_ids F -> wf_ids G ->
  (forall q, kid_list q F = kid_list q G) -> F = G.
Proof. exact (kid_list_ext F G). Qed.

Example Spec_example : kid_list None ex_F = Some [nd 7 70; nd 1 10; nd 2 20] /\
  kid_list (Some 2) ex_F = Some [nd 4 40; nd 9 90] /\ kid_list (Some 8) ex_F = None /\ kid_list (Some 3) ex_F = Some [].
Proof. vm_compute. auto. Qed.

Print Assumptions C01_roundtrip.
Print Assumptions C01_roundtrip_back.
Print Assumptions C01_rejects.
Print Assumptions C01_one_character_refuted.
Print Assumptions C02_steps.
Print Assumptions C02_collation.
Print Assumptions C34_positions.
Print Assumptions C35_filter.
Print Assumptions C15_sorted_histories.
Print Assumptions C15_sorted_add.
Print Assumptions C43_create_args.
Print Assumptions Spec_forest_is_its_child_lists.
