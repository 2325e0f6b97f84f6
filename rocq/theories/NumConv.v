(** Model of /repo/treebeard/numconv.py and proofs about it (C01, C02).

    Numbers are converted to lists of digit values ([digits]); characters are
    added on top ([int2str] / [str2int] over an alphabet of character codes). *)
From Coq Require Import List Arith Lia Bool ZArith.
From Verif Require Import Prelude.
Import ListNotations.

(** ** Model *)

(** /repo/treebeard/numconv.py:41-46, the loop of int2str: [acc] is the string
    [ret] built so far, as digit values.  [fuel] bounds the number of rounds;
    [None] means the loop is still running. *)
Fixpoint int2str_loop (radix : nat) (fuel : nat) (num : nat) (acc : list nat) : option (list nat) :=
  match fuel with
  | 0 => None
  | S fuel =>
      let acc := (num mod radix) :: acc in
      if num <? radix then Some acc else int2str_loop radix fuel (num / radix) acc
  end.

(** The number of rounds is at most the number of binary digits (+1).
    /repo/treebeard/numconv.py:41-46 *)
Definition digits (radix num : nat) : list nat :=
  match int2str_loop radix (S (Nat.log2 num)) num [] with Some l => l | None => [] end.

(** /repo/treebeard/numconv.py:48-61 on digit values. *)
Fixpoint undigits_from (radix acc : nat) (ds : list nat) : nat :=
  match ds with [] => acc | d :: ds => undigits_from radix (acc * radix + d) ds end.
(** /repo/treebeard/numconv.py:48-60 *)
Definition undigits (radix : nat) (ds : list nat) : nat := undigits_from radix 0 ds.

(** A character is an opaque code. /repo/treebeard/numconv.py:22-29 *)
Definition char := nat.

(** /repo/treebeard/numconv.py:22-29 __init__: the alphabet must not have
    duplicates.  [set(alphabet)] is modelled by [nodup]. *)
Definition numconv_init (alphabet : list char) : res (list char) :=
  if length (nodup Nat.eq_dec alphabet) =? length alphabet then Ok alphabet else Err ValueError.

(** [cached_map]: /repo/treebeard/numconv.py:29, dict(zip(alphabet, range(radix))).
    A later duplicate key would win, but there are no duplicates. *)
Fixpoint char_index_from (i : nat) (alphabet : list char) (c : char) : option nat :=
  match alphabet with
  | [] => None
  | x :: l => if x =? c then Some i else char_index_from (S i) l c
  end.
(** [cached_map[char]], /repo/treebeard/numconv.py:29, 48-60 *)
Definition char_index := char_index_from 0.

(** /repo/treebeard/numconv.py:31-46.  Only defined for radix >= 2 (radix 1 loops
    forever for num >= 1, radix 0 divides by zero): see [int2str_radix1]. *)
Definition int2str (alphabet : list char) (num : Z) : res (list char) :=
  if (num <? 0)%Z then Err ValueError
  else Ok (map (fun d => nth d alphabet 0) (digits (length alphabet) (Z.to_nat num))).

(** /repo/treebeard/numconv.py:48-61. *)
Fixpoint str2int_from (alphabet : list char) (acc : nat) (s : list char) : res nat :=
  match s with
  | [] => Ok acc
  | c :: s =>
      match char_index alphabet c with
      | Some d => str2int_from alphabet (acc * length alphabet + d) s
      | None => Err ValueError
      end
  end.
(** /repo/treebeard/numconv.py:48-60 *)
Definition str2int (alphabet : list char) (s : list char) : res nat := str2int_from alphabet 0 s.

(** ** Proofs *)

Lemma loop_acc radix fuel : forall num acc,
  int2str_loop radix fuel num acc =
  option_map (fun l => l ++ acc) (int2str_loop radix fuel num []).
Proof.
  induction fuel as [|fuel IH]; intros num acc; cbn [int2str_loop]; auto.
  destruct (num <? radix); auto.
  rewrite IH, (IH _ [num mod radix]).
  destruct (int2str_loop radix fuel (num / radix) []); simpl; auto.
  rewrite <- app_assoc. auto.
Qed.

Lemma undigits_from_app radix ds1 : forall acc ds2,
  undigits_from radix acc (ds1 ++ ds2) = undigits_from radix (undigits_from radix acc ds1) ds2.
Proof. induction ds1; simpl; auto. Qed.

Lemma undigits_from_eq radix ds : forall acc,
  undigits_from radix acc ds = acc * radix ^ length ds + undigits radix ds.
Proof.
  unfold undigits. induction ds as [|d ds IH]; intros acc; simpl; [lia|].
  rewrite IH, (IH d). lia.
Qed.

Lemma undigits_cons radix d ds : undigits radix (d :: ds) = d * radix ^ length ds + undigits radix ds.
Proof. unfold undigits at 1. simpl. rewrite undigits_from_eq. auto. Qed.

Lemma undigits_snoc radix ds d : undigits radix (ds ++ [d]) = undigits radix ds * radix + d.
Proof. unfold undigits. rewrite undigits_from_app. simpl. lia. Qed.

Lemma undigits_bound radix ds : Forall (fun d => d < radix) ds -> undigits radix ds < radix ^ length ds.
Proof.
  induction ds as [|d ds IH]; intros H; simpl; [cbv; lia|].
  inversion H; subst. rewrite undigits_cons. specialize (IH H3). nia.
Qed.

Lemma loop_ok radix : 2 <= radix -> forall fuel num,
  num < 2 ^ fuel ->
  0 < fuel ->
  exists ds, int2str_loop radix fuel num [] = Some ds /\
    undigits radix ds = num /\ Forall (fun d => d < radix) ds /\ ds <> [] /\
    (num = 0 -> ds = [0]) /\ (0 < num -> hd 0 ds <> 0).
Proof.
  intros Hr. induction fuel as [|fuel IH]; intros num Hn Hf; [lia|].
  cbn [int2str_loop].
  destruct (Nat.ltb_spec num radix).
  - rewrite Nat.mod_small by auto. exists [num]. repeat split; auto; try discriminate.
    + intros ->; auto.
    + simpl. lia.
  - assert (num / radix < 2 ^ fuel).
    { apply Nat.div_lt_upper_bound; [lia|]. simpl in Hn. nia. }
    assert (0 < num / radix) by (apply Nat.div_str_pos; lia).
    assert (0 < fuel) by (destruct fuel; simpl in *; lia).
    destruct (IH (num / radix)) as (ds & E & E1 & E2 & E3 & E4 & E5); auto.
    rewrite loop_acc, E. simpl. exists (ds ++ [num mod radix]). repeat split.
    + rewrite undigits_snoc, E1. rewrite Nat.mul_comm. symmetry. apply Nat.div_mod. lia.
    + apply Forall_app. split; auto. constructor; auto. apply Nat.mod_upper_bound. lia.
    + destruct ds; discriminate.
    + lia.
    + intros _. destruct ds; [congruence|]. simpl in *. auto.
Qed.

Lemma digits_spec radix num : 2 <= radix ->
  undigits radix (digits radix num) = num /\
  Forall (fun d => d < radix) (digits radix num) /\
  digits radix num <> [] /\
  (num = 0 -> digits radix num = [0]) /\ (0 < num -> hd 0 (digits radix num) <> 0).
Proof.
  intros Hr. unfold digits.
  destruct (loop_ok radix Hr (S (Nat.log2 num)) num) as (ds & E & H).
  - destruct num; [simpl; lia|]. apply Nat.log2_spec. lia.
  - lia.
  - rewrite E. tauto.
Qed.

(** The loop of a one-character alphabet never ends for a positive number. *)
Lemma int2str_radix1 fuel : forall num acc, 1 <= num -> int2str_loop 1 fuel num acc = None.
Proof.
  induction fuel as [|fuel IH]; intros num acc H; cbn [int2str_loop]; auto.
  destruct (Nat.ltb_spec num 1); [lia|]. apply IH. rewrite Nat.div_1_r. auto.
Qed.

Lemma undigits_lower radix ds : 2 <= radix -> ds <> [] -> hd 0 ds <> 0 ->
  radix ^ (length ds - 1) <= undigits radix ds.
Proof.
  destruct ds as [|d ds]; [congruence|]. intros Hr _ Hd. rewrite undigits_cons. simpl in *.
  rewrite Nat.sub_0_r. nia.
Qed.

(** The length of the conversion fits [n] digits iff the number is below radix^n. *)
Lemma digits_length radix num n : 2 <= radix -> 1 <= n ->
  (length (digits radix num) <= n <-> num < radix ^ n).
Proof.
  intros Hr Hn. destruct (digits_spec radix num Hr) as (E1 & E2 & E3 & E4 & E5).
  split; intros H.
  - rewrite <- E1. apply Nat.lt_le_trans with (radix ^ length (digits radix num)).
    + apply undigits_bound; auto.
    + apply Nat.pow_le_mono_r; lia.
  - destruct num as [|num]; [rewrite E4; simpl; auto|].
    destruct (Nat.le_gt_cases (length (digits radix (S num))) n) as [|L]; auto. exfalso.
    assert (radix ^ n <= S num); [|lia].
    rewrite <- E1. apply Nat.le_trans with (radix ^ (length (digits radix (S num)) - 1)).
    + apply Nat.pow_le_mono_r; lia.
    + apply undigits_lower; auto. apply E5. lia.
Qed.

Lemma undigits_inj radix ds1 : forall ds2, length ds1 = length ds2 ->
  Forall (fun d => d < radix) ds1 -> Forall (fun d => d < radix) ds2 ->
  undigits radix ds1 = undigits radix ds2 -> ds1 = ds2.
Proof.
  induction ds1 as [|d1 ds1 IH]; intros [|d2 ds2] L F1 F2 E; try discriminate; auto.
  inversion F1; subst. inversion F2; subst. simpl in L. injection L as L.
  rewrite !undigits_cons in E. rewrite L in E.
  assert (B1 := undigits_bound radix ds1 H2). assert (B2 := undigits_bound radix ds2 H4).
  rewrite L in B1.
  assert (d1 = d2) by nia. subst. f_equal. apply IH; auto; lia.
Qed.

(** Canonical digit lists: no superfluous leading zero. *)
Definition canonical (ds : list nat) : Prop := ds = [0] \/ (ds <> [] /\ hd 0 ds <> 0).

Lemma digits_undigits radix ds : 2 <= radix ->
  Forall (fun d => d < radix) ds -> canonical ds -> digits radix (undigits radix ds) = ds.
Proof.
  intros Hr F C. destruct (digits_spec radix (undigits radix ds) Hr) as (E1 & E2 & E3 & E4 & E5).
  destruct C as [->|[N H]].
  - apply E4. reflexivity.
  - assert (0 < undigits radix ds).
    { assert (L := undigits_lower radix ds Hr N H).
      assert (radix ^ (length ds - 1) <> 0) by (apply Nat.pow_nonzero; lia). lia. }
    assert (length (digits radix (undigits radix ds)) = length ds).
    { assert (1 <= length ds) by (destruct ds; [congruence|simpl; lia]).
      assert (A : length (digits radix (undigits radix ds)) <= length ds).
      { apply digits_length; auto. apply undigits_bound; auto. }
      destruct (Nat.eq_dec (length (digits radix (undigits radix ds))) (length ds)); auto.
      exfalso. assert (B := undigits_bound _ _ E2). rewrite E1 in B.
      assert (L := undigits_lower radix ds Hr N H).
      assert (radix ^ length (digits radix (undigits radix ds)) <= radix ^ (length ds - 1)).
      { apply Nat.pow_le_mono_r; lia. }
      lia. }
    apply undigits_inj with radix; auto.
Qed.

(** ** Characters *)

Lemma char_index_from_bound alphabet c : forall i d,
  char_index_from i alphabet c = Some d -> i <= d < i + length alphabet /\ nth (d - i) alphabet 0 = c.
Proof.
  induction alphabet as [|x l IH]; simpl; intros i d H; [discriminate|].
  destruct (Nat.eqb_spec x c).
  - inversion H; subst. rewrite Nat.sub_diag. split; auto. lia.
  - apply IH in H. destruct H as [H E]. split; [lia|].
    replace (d - i) with (S (d - S i)) by lia. auto.
Qed.

Lemma char_index_from_nth alphabet : NoDup alphabet -> forall i d, d < length alphabet ->
  char_index_from i alphabet (nth d alphabet 0) = Some (i + d).
Proof.
  induction 1 as [|x l Hx ND IH]; simpl; intros i d Hd; [lia|].
  destruct d as [|d].
  - rewrite Nat.eqb_refl. f_equal. lia.
  - assert (d < length l) by lia.
    destruct (Nat.eqb_spec x (nth d l 0)) as [E|_].
    + exfalso. apply Hx. rewrite E. apply nth_In. auto.
    + rewrite IH by auto. f_equal. lia.
Qed.

Lemma char_index_from_none alphabet c : forall i,
  char_index_from i alphabet c = None <-> ~ In c alphabet.
Proof.
  induction alphabet as [|x l IH]; simpl; intros i; [tauto|].
  destruct (Nat.eqb_spec x c).
  - split; [discriminate|tauto].
  - rewrite IH. tauto.
Qed.

Lemma str2int_from_digits alphabet : NoDup alphabet -> forall ds acc,
  Forall (fun d => d < length alphabet) ds ->
  str2int_from alphabet acc (map (fun d => nth d alphabet 0) ds) =
  Ok (undigits_from (length alphabet) acc ds).
Proof.
  intros ND. induction ds as [|d ds IH]; simpl; intros acc H; auto.
  inversion H; subst. unfold char_index. rewrite char_index_from_nth; auto.
Qed.

Lemma nodup_length_le {A} (dec : forall x y : A, {x = y} + {x <> y}) l :
  length (nodup dec l) <= length l.
Proof. induction l as [|x l IH]; simpl; auto. destruct (in_dec dec x l); simpl; lia. Qed.

Lemma nodup_length {A} (dec : forall x y : A, {x = y} + {x <> y}) l :
  length (nodup dec l) = length l <-> NoDup l.
Proof.
  split.
  - induction l as [|x l IH]; simpl; [constructor|].
    destruct (in_dec dec x l); simpl; intros H.
    + assert (L := nodup_length_le dec l). lia.
    + constructor; auto.
  - intros H. rewrite nodup_fixed_point; auto.
Qed.

Lemma init_ok_iff alphabet : numconv_init alphabet = Ok alphabet <-> NoDup alphabet.
Proof.
  unfold numconv_init. destruct (Nat.eqb_spec (length (nodup Nat.eq_dec alphabet)) (length alphabet)) as [E|E].
  - split; auto. intros _. apply nodup_length in E. auto.
  - split; [discriminate|]. intros H. exfalso. apply E, nodup_length, H.
Qed.

Lemma str_roundtrip alphabet (n : nat) : NoDup alphabet -> 2 <= length alphabet ->
  exists s, int2str alphabet (Z.of_nat n) = Ok s /\ str2int alphabet s = Ok n.
Proof.
  intros ND L. unfold int2str.
  destruct (Z.ltb_spec (Z.of_nat n) 0); [lia|]. rewrite Nat2Z.id.
  eexists; split; [reflexivity|]. unfold str2int.
  destruct (digits_spec _ n L) as (E1 & E2 & _).
  unfold undigits in E1. rewrite str2int_from_digits, E1; auto.
Qed.

Lemma str2int_from_inv alphabet : NoDup alphabet -> forall s acc n,
  str2int_from alphabet acc s = Ok n ->
  exists ds, s = map (fun d => nth d alphabet 0) ds /\
    Forall (fun d => d < length alphabet) ds /\ n = undigits_from (length alphabet) acc ds.
Proof.
  intros ND. induction s as [|c s IH]; simpl; intros acc n H.
  - inversion H. exists []. auto.
  - unfold char_index in H. destruct (char_index_from 0 alphabet c) as [d|] eqn:E; [|discriminate].
    apply char_index_from_bound in E. destruct E as [E1 E2]. rewrite Nat.sub_0_r in E2.
    apply IH in H. destruct H as (ds & -> & F & ->).
    exists (d :: ds). simpl. rewrite E2. repeat split; auto. constructor; auto. lia.
Qed.

(** A string of alphabet characters is canonical when it is a single character
    or does not start with the zero character. *)
Definition canonical_str (alphabet s : list char) : Prop :=
  s <> [] /\ (length s = 1 \/ hd_error s <> hd_error alphabet).

Lemma str_roundtrip_inv alphabet s n : NoDup alphabet -> 2 <= length alphabet ->
  str2int alphabet s = Ok n -> canonical_str alphabet s -> int2str alphabet (Z.of_nat n) = Ok s.
Proof.
  intros ND L H [C1 C2]. unfold str2int in H. apply str2int_from_inv in H; auto.
  destruct H as (ds & -> & F & ->). unfold int2str.
  destruct (Z.ltb_spec (Z.of_nat (undigits_from (length alphabet) 0 ds)) 0); [lia|].
  rewrite Nat2Z.id. f_equal. f_equal. apply digits_undigits; auto.
  destruct ds as [|d ds]; [simpl in C1; congruence|].
  destruct alphabet as [|x alphabet]; [simpl in L; lia|].
  destruct d as [|d].
  - destruct C2 as [C2|C2].
    + rewrite map_length in C2. destruct ds; [left; auto|discriminate].
    + simpl in C2. congruence.
  - right. split; simpl; congruence.
Qed.
