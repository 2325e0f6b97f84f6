(** Theorems about loading the children of a node in pages (C57). *)
From Coq Require Import List Arith Bool ZArith Lia.
From Verif Require Import Prelude Forest PagesModel.
From Verif Require AdminModel PropsAdmin PropsMP MPModel.
Import ListNotations.

Lemma full_pages per n k : 1 <= per -> k * per < Nat.max 1 n <-> k < num_pages per n.
Proof.
  intros Hp. unfold num_pages. set (m := Nat.max 1 n). assert (1 <= m) by lia. clearbody m.
  assert (E := Nat.div_mod (m + per - 1) per ltac:(lia)). assert (B := Nat.mod_upper_bound (m + per - 1) per ltac:(lia)).
  set (q := (m + per - 1) / per) in *. set (r := (m + per - 1) mod per) in *. clearbody q r.
  split; intros H1.
  - destruct (Nat.lt_ge_cases k q); auto. assert (per * q <= per * k) by (apply Nat.mul_le_mono_l; auto). nia.
  - assert (per * (S k) <= per * q) by (apply Nat.mul_le_mono_l; auto). nia.
Qed.

Lemma firstn_add {A} (l : list A) : forall n m, firstn (n + m) l = firstn n l ++ firstn m (skipn n l).
Proof. induction l as [|a l IH]; intros [|n] m; cbn; auto; [now rewrite firstn_nil|]. rewrite IH. auto. Qed.

Section Pages.
Variable A : Type.
Variables per max_all : nat.
Hypothesis per1 : 1 <= per.

(** Children are only added, and at the end, while the pages are loaded. *)
Definition grows (children : nat -> list A) : Prop := forall i, exists new, children (S i) = children i ++ new.

Lemma load_ok children : grows children -> forall fuel i result number,
  number = S i -> result = firstn (i * per) (children i) -> (i = 0 \/ i * per < length (children i)) ->
  match load_children per max_all false fuel children i result number with
  | Inserted rows => exists last, i <= last < i + fuel /\ rows = children last
  | Stuck => False
  | OutOfFuel => i + fuel = 0 \/ (i + fuel) * per < length (children (i + fuel))
  end.
Proof.
  intros G.
  induction fuel as [|fuel IH]; intros i result number -> -> Hi; [cbn [load_children]; rewrite Nat.add_0_r; auto|]. cbn [load_children]. unfold children_view.
  set (l := children i) in *.
  assert (K : exists rows, get_results per max_all false l (S i) = Some rows /\
    firstn (i * per) l ++ rows = firstn (S i * per) l).
  { unfold get_results. cbn [andb orb]. destruct (Nat.ltb_spec per (length l)) as [Hm|Hm]; cbn [negb].
    - unfold paginator_page. assert (i < num_pages per (length l)) by (apply full_pages; auto; lia).
      replace ((S i <? 1) || (num_pages per (length l) <? S i)) with false.
      2:{ symmetry. apply orb_false_iff. split; [auto|apply Nat.ltb_ge; lia]. }
      eexists. split; [reflexivity|]. cbn [Nat.sub]. rewrite Nat.sub_0_r. change (S i * per) with (per + i * per). rewrite (Nat.add_comm per (i * per)), firstn_add. f_equal.
      destruct (Nat.leb_spec (length l) (i * per + per)) as [Hl|Hl].
      + rewrite (firstn_all2 (skipn (i * per) l)) by (rewrite skipn_length; lia).
        rewrite (firstn_all2 (skipn (i * per) l)); auto. rewrite skipn_length. lia.
      + f_equal. lia.
    - exists l. split; auto. assert (i = 0).
      { destruct Hi as [Hi|Hi]; auto. destruct i; auto. exfalso. cbn [Nat.mul] in Hi. generalize dependent (i * per). lia. }
      subst i. cbn [Nat.mul firstn app]. rewrite Nat.add_0_r, firstn_all2; auto. }
  destruct K as (rows & -> & Ek). rewrite Ek. destruct (Nat.ltb_spec (S i) (num_pages per (length l))) as [Hn|Hn].
  - apply (full_pages per _ _ per1) in Hn. assert (Hl : S i * per < length l) by (change (S i * per) with (per + i * per) in *; lia).
    destruct (G i) as (new & En). fold l in En.
    specialize (IH (S i) (firstn (S i * per) l) (S i + 1)).
    assert (X : firstn (S i * per) l = firstn (S i * per) (children (S i))).
    { rewrite En, firstn_app. replace (S i * per - length l) with 0 by lia. cbn. rewrite app_nil_r. auto. }
    specialize (IH ltac:(lia) X). assert (Y : S i = 0 \/ S i * per < length (children (S i))).
    { right. rewrite En, app_length. lia. }
    specialize (IH Y). destruct (load_children _ _ _ _ _ _ _ _) as [R| |].
    + destruct IH as (last & Hlast & ->). exists last. split; auto. lia.
    + destruct IH.
    + rewrite Nat.add_succ_r. exact IH.
  - exists i. split; [lia|]. apply firstn_all2. destruct (Nat.le_gt_cases (length l) (S i * per)); auto.
    exfalso. assert (X : S i < num_pages per (length l)) by (apply full_pages; auto; lia). lia.
Qed.

(** If the children of the node are only added to, at the end, while the pages are loaded, then the
    rows inserted are the children at the time of the last request, each of them once; no
    request fails; and the loading comes to an end if the children do not go on growing. *)
Theorem C57_loaded children fuel : grows children ->
  match load per max_all false fuel children with
  | Inserted rows => exists last, last < fuel /\ rows = children last
  | Stuck => False
  | OutOfFuel => fuel = 0 \/ fuel * per < length (children fuel)
  end.
Proof.
  intros G. assert (H := load_ok children G fuel 0 [] 1 eq_refl eq_refl (or_introl eq_refl)). unfold load.
  destruct (load_children _ _ _ _ _ _ _ _); auto. destruct H as (last & H & E). exists last. split; auto. lia.
Qed.

(** ... in particular if they stay as they are. *)
Theorem C57_all_pages (l : list A) fuel : length l < fuel -> load per max_all false fuel (fun _ => l) = Inserted l.
Proof.
  intros H. assert (X := C57_loaded (fun _ => l) fuel). cbn beta in X.
  assert (G : grows (fun _ => l)) by (intros i; exists []; now rewrite app_nil_r). specialize (X G).
  destruct (load _ _ _ _ _) as [rows| |]; [destruct X as (? & _ & ->); auto|destruct X|]. exfalso.
  destruct X as [X|X]; [lia|]. assert (fuel * 1 <= fuel * per) by (apply Nat.mul_le_mono_l; auto). lia.
Qed.

(** With the parameter "all" the children appear once for every page, if there is more than one
    page and Django is willing to show them all. *)
Theorem C57_show_all (l : list A) fuel : length l < fuel -> load per max_all true fuel (fun _ => l) =
  Inserted (if (length l <=? max_all) && (per <? length l) then concat (repeat l (num_pages per (length l))) else l).
Proof.
  intros Hf. destruct (Nat.leb_spec (length l) max_all) as [Ha|Ha]; cbn [andb].
  - assert (E : forall n, get_results per max_all true l n = Some l).
    { intros n. unfold get_results. destruct (Nat.leb_spec (length l) max_all); [auto|lia]. }
    set (P := num_pages per (length l)) in *.
    assert (HP : P <= Nat.max 1 (length l)).
    { destruct (Nat.le_gt_cases P (Nat.max 1 (length l))) as [|C]; auto. exfalso. unfold P in C. apply (full_pages per _ _ per1) in C.
      assert (Nat.max 1 (length l) * 1 <= Nat.max 1 (length l) * per) by (apply Nat.mul_le_mono_l; auto). lia. }
    assert (H : forall m f i res, 1 <= f -> m + S i = P -> m < f -> load_children per max_all true f (fun _ => l) i res (S i) = Inserted (res ++ concat (repeat l (S m)))).
    { induction m as [|m IH]; intros [|f] i res H1 Hm Hf'; [lia| |lia|]; cbn [load_children]; unfold children_view; rewrite E; fold P.
      - destruct (Nat.ltb_spec (S i) P); [lia|]. cbn. rewrite app_nil_r. auto.
      - destruct (Nat.ltb_spec (S i) P); [|lia]. rewrite Nat.add_1_r. rewrite (IH f (S i) (res ++ l)) by lia.
        rewrite <- app_assoc. auto. }
    assert (P1 : 0 < P) by (apply full_pages; auto; lia).
    unfold load. rewrite (H (P - 1) fuel 0 []) by lia. replace (S (P - 1)) with P by lia. cbn [app].
    destruct (Nat.ltb_spec per (length l)) as [Hm|Hm]; auto. replace P with 1; [cbn; now rewrite app_nil_r|].
    destruct (Nat.lt_ge_cases 1 P) as [C|]; [|lia]. apply (full_pages per _ 1 per1) in C. lia.
  - assert (E : forall f i res n, load_children per max_all true f (fun _ => l) i res n = load_children per max_all false f (fun _ => l) i res n).
    { assert (X : forall n, get_results per max_all true l n = get_results per max_all false l n).
      { intros n. unfold get_results. destruct (Nat.leb_spec (length l) max_all); [lia|]. auto. }
      induction f as [|f IH]; intros; auto. cbn [load_children]. unfold children_view. rewrite X.
      destruct (get_results per max_all false l n) as [rows|]; auto. destruct (n <? _); auto. }
    unfold load. rewrite E. apply C57_all_pages. auto.
Qed.
End Pages.

(** Five children of node 0 in pages of two; a sixth and a seventh one are added meanwhile. *)
Example C57_example :
  load 2 200 false 9 (fun _ => [1; 2; 3; 4; 5]) = Inserted [1; 2; 3; 4; 5] /\
  (let children i := if i <? 2 then [1; 2; 3; 4; 5] else [1; 2; 3; 4; 5; 6; 7] in
   grows nat children /\ load 2 200 false 9 children = Inserted [1; 2; 3; 4; 5; 6; 7]).
Proof.
  split; [reflexivity|]. split; [|reflexivity]. intros [|[|[|i]]]; cbn; [exists []|exists [6; 7]|exists []|exists []]; reflexivity.
Qed.

(** The children of node 2 of the example tree, one on a page. *)
Example C57_mp_example : exists es, AdminModel.mp_context PropsMP.c10 (MPModel.db_rows PropsMP.ex_db) (Some 2) = Ok es /\
  map AdminModel.e_node es = [4; 9] /\ load 1 200 false 3 (fun _ => es) = Inserted es.
Proof. eexists. vm_compute. auto. Qed.

(** Every child appears twice if the page was opened with "Show all". *)
Theorem C57_show_all_refuted : exists (l : list nat) per max_all, 1 <= per /\ NoDup l /\ forall fuel, length l < fuel ->
  load per max_all true fuel (fun _ => l) = Inserted (l ++ l).
Proof.
  exists [1; 2; 3], 2, 200. split; [auto|]. split; [repeat constructor; cbn; intuition discriminate|].
  intros fuel H. rewrite C57_show_all by auto. reflexivity.
Qed.

(** A child that is deleted while the pages are loaded makes another one be left out (3), or the
    last request fail, after which nothing is shown. *)
Theorem C57_deleted_refuted : exists (children other : nat -> list nat),
  (forall i, In 3 (children i)) /\ load 2 200 false 9 children = Inserted [1; 2; 4; 5] /\
  (forall i, In 3 (other i)) /\ load 2 200 false 9 other = Stuck.
Proof.
  exists (fun i => if i <? 1 then [1; 2; 3; 4; 5] else [2; 3; 4; 5]), (fun i => if i <? 2 then [1; 2; 3; 4; 5] else [2; 3; 4; 5]).
  split; [intros i; destruct (i <? 1); cbn; tauto|]. split; [reflexivity|].
  split; [intros i; destruct (i <? 2); cbn; tauto|reflexivity].
Qed.

(** A child that is inserted before the others makes another one be shown twice (2). *)
Theorem C57_inserted_refuted : exists (children : nat -> list nat), (forall i, NoDup (children i)) /\
  load 2 200 false 9 children = Inserted [1; 2; 2; 3].
Proof.
  exists (fun i => if i <? 1 then [1; 2; 3] else [0; 1; 2; 3]).
  split; [intros i; destruct (i <? 1); repeat constructor; cbn; intuition discriminate|reflexivity].
Qed.

Print Assumptions C57_loaded.
Print Assumptions C57_all_pages.
Print Assumptions C57_show_all.
Print Assumptions C57_show_all_refuted.
Print Assumptions C57_deleted_refuted.
Print Assumptions C57_inserted_refuted.
