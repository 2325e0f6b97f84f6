(** load_bulk of the materialized paths with bulk_create. *)
From Coq Require Import String List Arith Lia Bool ZArith Permutation Sorted.
From Verif Require Import Prelude Forest SpecFacts SpecSane CommonModel Order History SpecKids SpecRun NumConv PathTab PathMove
  MPModel MPStep MPInv MPShift MPReorder MPAdd MPReads MPHist MPRoom BulkModel BulkFacts BulkTrees BulkLoad BulkMP.
Import ListNotations.
Local Open Scope nat_scope.

(** The ids below the roots, in the order bulk_create inserts them. *)
Fixpoint kids_ids (g : forest node) : list nat :=
  match g with Nil => [] | Cons _ k r => ids k ++ kids_ids r end.

(** The primary keys: the rows of the first level are inserted first. *)
Definition describes_tops (keep_ids : bool) (next : nat -> nat) (data : forest item) (g : forest node) : Prop :=
  fmap it_data data = fmap ndata g /\
  if keep_ids then fmap it_pk data = fmap (fun x => Some (nid x)) g
  else map nid (roots g) ++ kids_ids g = map next (seq 0 (size g)).

Lemma prepare_tops_keep next : forall data g i n, fmap it_data data = fmap ndata g ->
  fmap it_pk data = fmap (fun x => Some (nid x)) g -> prepare_tops true next i n data = Ok g.
Proof.
  induction data as [|it k IHk r IHr]; intros [|x gk gr] i n E1 E2; try discriminate; auto.
  cbn [fmap] in E1, E2. injection E1 as D1 D2 D3. injection E2 as P1 P2 P3.
  cbn [prepare_tops]. unfold item_pk. rewrite P1. cbn [bind].
  destruct (prepare_keep next _ gk n D2 P2) as (m & ->). cbn [bind]. rewrite (IHr gr (S i) m D3 P3). cbn [bind].
  rewrite D1. destruct x; auto.
Qed.

Lemma app_eq_split {A} (a b c d : list A) : length a = length c -> a ++ b = c ++ d -> a = c /\ b = d.
Proof.
  revert c. induction a as [|x a IH]; intros [|y c] L E; try discriminate; auto.
  injection L as L. injection E as -> E. destruct (IH c L E) as (-> & ->). auto.
Qed.

Lemma kids_size (g : forest node) : length (kids_ids g) + length (roots g) = size g.
Proof. induction g as [|x k _ r IH]; auto. cbn [kids_ids roots size length]. rewrite app_length, size_ids. lia. Qed.

Lemma prepare_tops_next next : forall data g i n, fmap it_data data = fmap ndata g ->
  map nid (roots g) = map next (seq i (length (roots g))) ->
  kids_ids g = map next (seq n (length (kids_ids g))) -> prepare_tops false next i n data = Ok g.
Proof.
  induction data as [|it k IHk r IHr]; intros [|x gk gr] i n E1 E2 E3; try discriminate; auto.
  cbn [fmap] in E1. injection E1 as D1 D2 D3. cbn [roots map seq length] in E2. injection E2 as P E2.
  cbn [kids_ids] in E3. rewrite app_length, seq_app, map_app in E3.
  apply app_eq_split in E3; [|rewrite map_length, seq_length; auto].
  rewrite size_ids in E3. destruct E3 as (Ek & Er). cbn [prepare_tops item_pk bind]. rewrite (prepare_next next k gk n D2 Ek). cbn [bind].
  rewrite (IHr gr (S i) (n + size gk) D3 E2 Er). cbn [bind]. rewrite D1, <- P. destruct x; auto.
Qed.

Lemma prepare_tops_ok keep_ids next data g : describes_tops keep_ids next data g ->
  prepare_tops keep_ids next 0 (length (roots data)) data = Ok g.
Proof.
  intros (H1 & H2). destruct keep_ids; [apply prepare_tops_keep; auto|].
  assert (El : length (roots data) = length (roots g)).
  { apply (f_equal (@roots _)) in H1. rewrite !roots_fmap in H1. apply (f_equal (@length _)) in H1. rewrite !map_length in H1. auto. }
  rewrite <- kids_size, Nat.add_comm, seq_app, map_app in H2. rewrite El.
  apply app_eq_split in H2; [|rewrite !map_length, seq_length; auto].
  destruct H2. apply prepare_tops_next; auto.
Qed.

Section MP.
Variable cfg : mp_cfg.
Hypothesis radix2 : 2 <= radix cfg.
Hypothesis step1 : 1 <= steplen cfg.
Notation R := (radix cfg).
Notation w := (steplen cfg).
Notation o := (order_by cfg).
Notation mkrow := (mkrow cfg).
Notation kpwf := (kpwf cfg).
Notation kvalid := (kvalid cfg).
Notation lay := (lay cfg).
Notation seg := (seg cfg).
Notation maxstep := (maxstep cfg).
Notation stores := (stores cfg).
Notation ups := (ups mprow m_pk).

Lemma stores_perm t t' F : Permutation t t' -> stores t F -> stores t' F.
Proof.
  intros P (f & (W & V & L) & N & E & WF). exists f. split; auto. split; auto. split; auto.
  transitivity t; auto. symmetry. auto.
Qed.

(** ** The children built in memory *)
Fixpoint built (i : nat) (g : forest node) : kf :=
  match g with
  | Nil => Nil
  | Cons x k r => Cons (seg (i + 1), (x, length (roots k))) (built 0 k) (built (i + 1) r)
  end.

Lemma built_erase g : forall i, kerase (built i g) = g.
Proof.
  induction g as [|x k IHk r IHr]; intros i; auto. cbn [built].
  change (kerase (Cons (seg (i + 1), (x, length (roots k))) (built 0 k) (built (i + 1) r)))
    with (Cons x (kerase (built 0 k)) (kerase (built (i + 1) r))). rewrite IHk, IHr. auto.
Qed.

Lemma built_roots g i x : In x (roots (built i g)) -> exists j, fst x = seg (j + 1) /\ i <= j /\ j < i + length (roots g).
Proof.
  revert i. induction g as [|y k _ r IH]; intros i; [intros []|]. cbn [built roots length]. intros [<-|H].
  - exists i. split; auto. lia.
  - destruct (IH _ H) as (j & E & H1 & H2). exists j. split; auto. lia.
Qed.

Lemma built_length g i : length (roots (built i g)) = length (roots g).
Proof. revert i. induction g as [|y k _ r IH]; intros i; auto. cbn. auto. Qed.

Lemma built_ok g : forall i, i + length (roots g) < maxstep -> narrow maxstep g ->
  kpwf (built i g) /\ kvalid (built i g) /\ nc_ok (built i g).
Proof.
  induction g as [|x k IHk r IHr]; intros i B N; [split; [exact I|split; [constructor|exact I]]|].
  cbn [narrow] in N. destruct N as (N1 & N2 & N3). cbn [roots length] in B.
  destruct (IHk 0) as (Wk & Vk & Nk); auto. destruct (IHr (i + 1)) as (Wr & Vr & Nr); auto; [lia|].
  cbn [built]. split; [|split].
  - split; [apply (seg_len cfg radix2 step1); lia|]. split; auto. split; auto. apply Forall_forall. intros y Hy.
    destruct (built_roots _ _ _ Hy) as (j & -> & H1 & H2). cbn [fst].
    change (plt (seg (i + 1)) (seg (j + 1)) = true). rewrite (plt_seg cfg radix2 step1) by lia. apply Nat.ltb_lt. lia.
  - apply kvalid_cons. split; auto. apply (vseg_seg cfg radix2 step1); lia.
  - cbn [nc_ok snd]. rewrite built_length. auto.
Qed.

Lemma built_rows g : forall q d i, length q = d * w -> i + length (roots g) < maxstep -> narrow maxstep g ->
  map mkrow (map (pre q) (rows (built i g))) = build_children cfg q d i g.
Proof.
  induction g as [|x k IHk r IHr]; intros q d i Lq B N; auto.
  cbn [narrow] in N. destruct N as (N1 & N2 & N3). cbn [roots length] in B.
  cbn [built rows build_children fst]. cbn [map]. rewrite !map_app.
  assert (Eg : get_path cfg q (d + 1) (i + 1) = q ++ seg (i + 1)).
  { rewrite (Nat.add_1_r d). rewrite <- (app_nil_r q) at 1. apply get_path_app. auto. }
  assert (Ls : length (seg (i + 1)) = w) by (apply (seg_len cfg radix2 step1); lia).
  assert (Lq' : length (q ++ seg (i + 1)) = (d + 1) * w) by (rewrite app_length, Lq, Ls; nia).
  rewrite Eg. f_equal.
  - unfold MPInv.mkrow, pre. cbn [fst snd]. rewrite Lq', Nat.div_mul by lia. auto.
  - f_equal; [|apply IHr; auto; lia]. rewrite <- (IHk _ _ 0 Lq'); auto. f_equal. rewrite map_map. apply map_ext.
    intros y. unfold pre. cbn [fst snd]. rewrite app_assoc. auto.
Qed.

Lemma build_pks g : forall q d i, map m_pk (build_children cfg q d i g) = ids g.
Proof.
  induction g as [|x k IHk r IHr]; intros q d i; auto. cbn [build_children map m_pk]. rewrite map_app, IHk, IHr, ids_cons. auto.
Qed.

(** Rows for the children of a leaf. *)
Lemma graft_ok t F r g : stores t F -> In r t -> m_nc r = 0 -> length (roots g) < maxstep -> narrow maxstep g ->
  wf_ids g -> (forall i, In i (ids g) -> ~ In i (ids F)) ->
  stores (map (upd_nc_pk (m_pk r) (fun _ => length (roots g))) t ++ build_children cfg (m_path r) (m_depth r) 0 g)
         (append (Some (m_pk r)) g F).
Proof.
  intros St Hr Nc B N Wg D. assert (St' := St). destruct St' as (f & L & Nf & <- & WF). assert (W : kpwf f) by apply L. assert (V : kvalid f) by apply L.
  assert (U : is_up (Some (m_pk r)) (kerase f)) by (intros p E; injection E as <-; eapply stores_in; eauto).
  assert (WF' := append_wf _ g _ WF U Wg D).
  destruct (lay_in cfg _ _ _ L Hr) as ([q a] & Hx & ->).
  destruct (@row_kids _ _ _ _ _ Hx) as [l Hl]. destruct (Hl a l) as [f' HA].
  assert (f = f') by (eapply At_same; eauto). subst f'.
  assert (Na := nc_At_par _ _ _ _ _ _ _ HA Nf). change (m_nc (mkrow (q, a))) with (snd a) in Nc. rewrite Nc in Na.
  assert (l = Nil) as -> by (destruct l; [auto|discriminate]).
  set (n := length (roots g)) in *. set (a' := (fst a, n) : payload).
  destruct (@At_upd _ Nat.ltb w payload irr ltb_tot' step1 _ _ _ _ _ HA W (fun b => (fst b, n))) as (f1 & H1 & P1).
  change ((fun b : payload => (fst b, n)) a) with a' in H1.
  destruct (@At_chain _ _ _ _ _ _ _ _ H1 (Some (a', a')) (built 0 g) eq_refl) as (f2 & H2 & H3).
  change (pcomp (Some (a, a')) (Some (a', a'))) with (Some (a, a')) in H3.
  destruct (built_ok g 0 B N) as (Wb & Vb & Nb).
  assert (W2 := k_At_pwf cfg _ _ _ _ _ _ H3 W Wb).
  assert (V2 := kvalid_At cfg _ _ _ _ _ _ H3 V Vb).
  exists f2. split; [|split; [|split]].
  - split; auto. split; auto.
    destruct (@At_rows _ Nat.ltb w payload irr ltb_tot' step1 _ _ _ _ _ _ H2) as (R0 & Q1 & Q2 & _).
    cbn [rows map] in Q1. rewrite app_nil_r in Q1.
    assert (P2 : Permutation (rows f2) (rows f1 ++ map (pre q) (rows (built 0 g)))).
    { rewrite Q2, Q1. cbn [pold pnew option_map fst snd]. rewrite app_assoc. auto. }
    rewrite P2, map_app. apply Permutation_app.
    + rewrite <- P1. destruct L as (_ & _ & P). rewrite P, !map_map.
      match goal with |- Permutation ?a ?b => replace b with a; [reflexivity|] end. apply map_ext_in. intros y Hy. unfold upd_nc_pk, updrow. cbn [m_pk].
      change (m_pk (mkrow y)) with (nid (fst (snd y))). change (m_pk (mkrow (q, a))) with (nid (fst a)).
      change (leq Nat.ltb (fst y) q) with (peq (fst y) q).
      destruct (Nat.eqb_spec (nid (fst (snd y))) (nid (fst a))) as [E|E].
      * assert (Hyr : mkrow y = mkrow (q, a)).
        { apply (pk_inj cfg t f); auto; [split; auto; split; auto|]. apply (Permutation_in _ (Permutation_sym P)). apply in_map. auto. }
        apply (f_equal m_path) in Hyr. change (fst y = q) in Hyr. rewrite Hyr, peq_refl. unfold MPInv.mkrow. cbn [fst snd]. rewrite Hyr. auto.
      * replace (peq (fst y) q) with false; auto. symmetry. apply peq_false. intros Ey. apply E. destruct y as [py ay]. cbn [fst] in Ey. subst py.
        cbn [snd]. rewrite (k_inj cfg step1 _ _ _ _ W Hy Hx). auto.
    + change (m_path (mkrow (q, a))) with q. destruct (depth_spec cfg radix2 step1 _ _ W Hx) as [E _].
      rewrite (built_rows g q (m_depth (mkrow (q, a))) 0); auto.
  - apply (nc_At _ _ _ _ _ _ H3 Nf Nb). intros b b' E. injection E as <- <-. cbn [snd a']. rewrite built_length. auto.
  - assert (C := At_Ctx fst H3 (fun b b' E => ltac:(injection E as <- <-; reflexivity))).
    cbn [option_map fst] in C. symmetry. unfold append. apply (Ctx_at_kids (fun c => fapp c g) C WF).
    cbn [fapp]. change (erase fst Nil) with (@Nil node). cbn [fapp]. apply built_erase.
  - auto.
Qed.

(** ** Rows that get their numchild in advance *)
Definition preset (s : nat -> option nat) (r : mprow) : mprow :=
  match s (m_pk r) with Some n => set_nc r n | None => r end.

Definition pset (s : nat -> option nat) (a : payload) : payload :=
  match s (nid (fst a)) with Some n => (fst a, n) | None => a end.
Definition kset (s : nat -> option nat) (f : kf) : kf := fmap (fun x => (fst x, pset s (snd x))) f.

Lemma preset_pk s r : m_pk (preset s r) = m_pk r.
Proof. unfold preset. destruct (s _); auto. Qed.
Lemma preset_path s r : m_path (preset s r) = m_path r.
Proof. unfold preset. destruct (s _); auto. Qed.
Lemma preset_depth s r : m_depth (preset s r) = m_depth r.
Proof. unfold preset. destruct (s _); auto. Qed.

Lemma pset_fst s a : fst (pset s a) = fst a.
Proof. unfold pset. destruct (s _); auto. Qed.

Lemma kset_rows s f : rows (kset s f) = map (fun x => (fst x, pset s (snd x))) (rows f).
Proof.
  induction f as [|x k IHk r IHr]; auto. unfold kset in *. cbn [fmap rows fst]. rewrite IHk, IHr. cbn [map]. rewrite map_app, !map_map. auto.
Qed.

Lemma kset_pwf s f : kpwf f -> kpwf (kset s f).
Proof.
  induction f as [|x k IHk r IHr]; auto. intros (W1 & W2 & W3 & W4). unfold kset in *. cbn [fmap]. repeat split; auto.
  rewrite roots_fmap. rewrite Forall_forall in *. intros y Hy. apply in_map_iff in Hy. destruct Hy as (z & <- & Hz). cbn [fst]. apply W4. auto.
Qed.

Lemma kset_valid s f : kvalid f -> kvalid (kset s f).
Proof.
  unfold MPInv.kvalid, kset. rewrite preorder_fmap, !Forall_forall. intros H y Hy. apply in_map_iff in Hy.
  destruct Hy as (z & <- & Hz). cbn [fst]. auto.
Qed.

Lemma kset_erase s f : kerase (kset s f) = kerase f.
Proof.
  unfold kerase, erase, kset. rewrite fmap_fmap. apply fmap_ext. intros x _. cbn [snd]. apply pset_fst.
Qed.

Lemma preset_mkrow s x : preset s (mkrow x) = mkrow (fst x, pset s (snd x)).
Proof. unfold preset, pset, MPInv.mkrow, set_nc. cbn [m_pk m_path m_depth m_nc m_data fst snd]. destruct (s _); auto. Qed.

Lemma kset_lay s t f : lay t f -> lay (map (preset s) t) (kset s f).
Proof.
  intros (W & V & P). split; [apply kset_pwf; auto|]. split; [apply kset_valid; auto|].
  rewrite P, kset_rows, !map_map. match goal with |- Permutation ?a ?b => replace b with a; [reflexivity|] end.
  apply map_ext. intros x. apply preset_mkrow.
Qed.

Lemma kset_At s q pa (l l' f f' : kf) : At q pa l l' f f' ->
  At q (option_map (fun z => (pset s (fst z), pset s (snd z))) pa) (kset s l) (kset s l') (kset s f) (kset s f').
Proof.
  induction 1; unfold kset in *; cbn [option_map fmap fst snd] in *; try constructor; auto.
  change (fst sb) with (fst (fst sb, pset s (snd sb))). constructor. auto.
Qed.

Lemma save_row_inv db r db' : save_row db r = Ok db' -> db_rows db' = r :: db_rows db ->
  existsb (fun x => peq (m_path x) (m_path r) && negb (m_pk x =? m_pk r)) (db_rows db) = false /\
  existsb (fun x => m_pk x =? m_pk r) (db_rows db) = false.
Proof.
  unfold save_row. destruct (existsb _ (db_rows db)) eqn:E1; [discriminate|].
  destruct (existsb (fun x => m_pk x =? m_pk r) (db_rows db)) eqn:E2; auto.
  intros H E. injection H as <-. cbn [db_rows] in E. apply (f_equal (@length _)) in E. rewrite map_length in E. cbn in E. lia.
Qed.

Lemma existsb_preset s (P : mprow -> bool) t : (forall r, P (preset s r) = P r) -> existsb P (map (preset s) t) = existsb P t.
Proof. intros H. induction t as [|r t IH]; auto. cbn [map existsb]. rewrite H, IH. auto. Qed.

Lemma mp_add_preset s t sig F up q k x nc : stores t F -> is_up (ups up) F -> goes_last o (ups up) F x -> upath t up q ->
  let r := mkMP (nid x) (q ++ seg k) (length q / w + 1) 0 (ndata x) in
  (exists up', mp_add cfg (mkDB t sig) up 0 x = Ok (mkDB (r :: inc_parent t q) sig, r, up')) ->
  (forall p, up = Some p -> s (m_pk p) = None) -> s (nid x) = Some nc ->
  exists up', mp_add cfg (mkDB (map (preset s) t) sig) up nc x =
    Ok (mkDB (map (preset s) (r :: inc_parent t q)) sig, preset s r, up') /\ ups up' = ups up.
Proof.
  intros St U Gl Uq r (up0 & E0) Sn Sx. destruct St as (f & L & N & <- & WF).
  destruct (up_at cfg step1 _ f up L N WF U) as (q' & pa & l & Au & Uq' & Ep & Eq & Ek & Epa).
  assert (q' = q).
  { destruct up as [p|]; cbn in Uq, Uq'; [|congruence]. destruct Uq as (n1 & H1 & I1 & <-), Uq' as (n2 & H2 & I2 & <-).
    rewrite (pk_inj cfg _ _ _ _ L WF H1 H2); auto. congruence. }
  subst q'. assert (HA := proj1 Au).
  assert (Gt : is_sorted cfg = true -> forall y, In y (nodes l) -> sorted_after o (ndata x) (ndata y) = false).
  { intros Hso y Hy. assert (No : o <> []) by (intros E; unfold is_sorted in Hso; rewrite E in Hso; discriminate).
    destruct (Gl No) as (V & G). apply gt_false; auto. apply G.
    rewrite (kl_some _ _ _ Ek). rewrite MPReorder.kerase_roots. auto. }
  destruct (mp_add_eq cfg radix2 step1 (mkDB t sig) f up q pa l 0 x L WF Au Gt) as (up1 & Eu1 & E1).
  rewrite E0 in E1. clear E0.
  assert (Au' : at_up up (kset s f) q (option_map (fun z => (pset s (fst z), pset s (snd z))) pa) (kset s l)).
  { split; [apply kset_At; auto|]. destruct Au as (_ & Au). destruct up as [p|].
    - destruct Au as (a & -> & A1 & A2). exists a. cbn [option_map fst snd].
      assert (Ea : pset s a = a) by (unfold pset; rewrite A1, Sn; auto). rewrite Ea. split; auto. split; auto.
      unfold kset. rewrite roots_fmap, map_length. auto.
    - destruct Au as (-> & ->). auto. }
  assert (Gt' : is_sorted cfg = true -> forall y, In y (nodes (kset s l)) -> sorted_after o (ndata x) (ndata y) = false).
  { intros Hso y Hy. apply Gt; auto. unfold kset in Hy. rewrite roots_fmap, map_map in Hy. cbn [snd] in Hy.
    apply in_map_iff in Hy. destruct Hy as (z & <- & Hz). rewrite pset_fst. apply in_map_iff. eauto. }
  assert (WF' : wf_ids (kerase (kset s f))) by (rewrite kset_erase; auto).
  destruct (mp_add_eq cfg radix2 step1 (mkDB (map (preset s) t) sig) (kset s f) up q _ (kset s l) nc x (kset_lay s t f L) WF' Au' Gt') as (up2 & Eu2 & E2).
  exists up2. split; auto. rewrite E2. clear E2.
  assert (En : next_path cfg up q (kset s l) = next_path cfg up q l).
  { unfold next_path, kset. rewrite roots_fmap, last_opt_map. destruct (last_opt (roots l)) as [[]|]; auto. }
  rewrite En. destruct (next_path cfg up q l) as [np|]; [|discriminate]. cbn [bind] in *. cbv zeta in *. cbn [db_rows db_sig] in *.
  destruct (save_row _ _) as [db1|] eqn:Es in E1; [|discriminate]. cbn [bind] in E1. injection E1 as Ed E1 _.
  subst np db1. fold r in Es. destruct (save_row_inv _ _ _ Es eq_refl) as (X1 & X2). cbn [db_rows] in X1, X2.
  assert (Ei : inc_parent (map (preset s) t) q = map (preset s) (inc_parent t q)).
  { unfold inc_parent. destruct q as [|d q]; auto. rewrite !map_map. apply map_ext_in. intros y Hy.
    unfold upd_nc. rewrite preset_path. destruct (peq (m_path y) (d :: q)) eqn:E.
    - apply peq_iff in E. unfold preset. cbn [m_pk m_path m_depth m_nc m_data].
      assert (Sy : s (m_pk y) = None).
      { destruct up as [p|]; [|destruct (proj2 Au) as (E3 & _); discriminate]. destruct Uq as (nd & H1 & H2 & H3).
        replace (m_pk y) with (m_pk p); [apply Sn; auto|]. rewrite <- H2.
        destruct (lay_in cfg _ _ _ L Hy) as ([py ay] & Ky & ->). destruct (lay_in cfg _ _ _ L H1) as ([pn an] & Kn & ->).
        cbn in E, H3. subst py pn. cbn. rewrite (k_inj cfg step1 _ _ _ _ (proj1 L) Ky Kn). auto. }
      rewrite Sy. auto.
    - unfold preset. destruct (s (m_pk y)); auto. }
  rewrite Ei. assert (Er : mkMP (nid x) (q ++ seg k) (length q / w + 1) nc (ndata x) = preset s r) by (unfold preset, r; cbn; rewrite Sx; auto).
  rewrite Er. unfold save_row. cbn [db_rows db_sig]. rewrite preset_path, preset_pk.
  rewrite !existsb_preset, X1, X2; auto.
  - intros y. rewrite preset_pk. auto.
  - intros y. rewrite preset_pk, preset_path. auto.
Qed.

(** ** The first level, then everything below it *)
Fixpoint top_nc (g : forest node) (i : nat) : option nat :=
  match g with
  | Nil => None
  | Cons x k r => if nid x =? i then Some (length (roots k)) else top_nc r i
  end.

Lemma top_nc_none g i : ~ In i (ids g) -> top_nc g i = None.
Proof.
  induction g as [|x k _ r IH]; auto. rewrite ids_cons. simpl. rewrite in_app_iff. intros H.
  destruct (Nat.eqb_spec (nid x) i); [tauto|]. apply IH. tauto.
Qed.

Lemma append_below_all up x k r F : wf_ids (Cons x k r) -> ~ In (nid x) (ids F) -> is_up up F ->
  append (Some (nid x)) k (append up (Cons x Nil r) F) = append up (Cons x k r) F.
Proof.
  intros Wg H U. apply wf_cons_inv in Wg. destruct Wg as (X1 & X2 & _).
  unfold append. destruct up as [p|]; cbn [at_kids].
  - specialize (U p eq_refl). clear X1. revert H U. induction F as [|a k' IHk r' IHr]; cbn [at_node]; [intros _ []|].
    rewrite ids_cons. simpl. rewrite !in_app_iff. intros H U.
    destruct (Nat.eqb_spec (nid a) p).
    + cbn [at_node]. destruct (Nat.eqb_spec (nid a) (nid x)); [tauto|].
      rewrite at_node_new by tauto. rewrite (at_node_notin (nid x) _ r') by tauto. auto.
    + cbn [at_node]. destruct (Nat.eqb_spec (nid a) (nid x)); [tauto|].
      f_equal.
      * destruct (in_dec Nat.eq_dec p (ids k')) as [Hk|Hk]; [apply IHk; tauto|].
        rewrite !(at_node_notin p _ k' Hk). apply at_node_notin. tauto.
      * destruct (in_dec Nat.eq_dec p (ids r')) as [Hk|Hk]; [apply IHr; tauto|].
        rewrite !(at_node_notin p _ r' Hk). apply at_node_notin. tauto.
  - rewrite at_node_new by tauto. auto.
Qed.

Lemma kids_ids_in g i : In i (kids_ids g) -> In i (ids g).
Proof.
  induction g as [|x k _ r IH]; [intros []|]. cbn [kids_ids]. rewrite ids_cons. simpl. rewrite !in_app_iff. tauto.
Qed.

Theorem tops_ok (P : Prop) g : forall s t sig F up, stores t F -> (P -> compact cfg t F) -> ordered o F ->
  is_up (ups up) F -> wf_ids g -> (forall i, In i (ids g) -> ~ In i (ids F)) -> follows o (kl (ups up) F) g ->
  narrow maxstep g -> (forall p, up = Some p -> s (m_pk p) = None) ->
  (forall i, In i (map nid (roots g)) -> s i = top_nc g i) ->
  (exists T rs, load_tops cfg (mkDB (map (preset s) t) sig) up g = Ok (mkDB (map (preset s) T) sig, map nid (roots g), rs) /\
     map m_pk rs = kids_ids g /\ stores (map (preset (top_nc g)) T ++ rs) (append (ups up) g F) /\
     (forall y, In y t -> ups up <> Some (m_pk y) -> In y T)) \/
  (load_tops cfg (mkDB (map (preset s) t) sig) up g = Err PathOverflow /\ ~ (P /\ fits cfg (append (ups up) g F))).
Proof.
  induction g as [|x k _ r IH]; intros s t sig F up St Cp O U Wg D Fo Nw Sn Sx.
  { left. exists t, []. cbn [load_tops roots map kids_ids]. split; auto. split; auto. rewrite append_nil, app_nil_r. split; auto.
    replace (map (preset (top_nc Nil)) t) with t; auto. symmetry. rewrite <- (map_id t) at 2. apply map_ext. auto. }
  assert (WF : wf_ids F) by (destruct St as (f & _ & _ & _ & ?); auto).
  assert (Wg' := Wg). apply wf_cons_inv in Wg'. destruct Wg' as (Xk & Xr & Wk & Wr & Dkr).
  assert (Dx : ~ In (nid x) (ids F)) by (apply D; rewrite ids_cons; simpl; auto).
  assert (Dk : forall i, In i (ids k) -> ~ In i (ids F)) by (intros; apply D; rewrite ids_cons; simpl; rewrite in_app_iff; auto).
  assert (Dr : forall i, In i (ids r) -> ~ In i (ids F)) by (intros; apply D; rewrite ids_cons; simpl; rewrite in_app_iff; auto).
  cbn [narrow] in Nw. destruct Nw as (N1 & N2 & N3).
  assert (Gl : goes_last o (ups up) F x).
  { intros No. destruct (Fo No) as (S1 & S2 & S3). apply values_cons in S2. split; [tauto|].
    intros c Hc. apply S3; simpl; auto. }
  assert (O1 := append_ordered o _ _ _ WF U O Gl).
  cbn [load_tops].
  destruct (mp_add_last cfg radix2 step1 (mkDB t sig) F up x St U Dx Gl) as (q & Uq & [(kk & up1 & Kb & E1 & Eu1 & S1 & K)|(E1 & K)]).
  2:{ (* no room *)
    right. assert (Nf := full_not_fits cfg radix2 step1 t F up q x St U Dx Uq K).
    assert (E : mp_add cfg (mkDB (map (preset s) t) sig) up (length (roots k)) x = Err PathOverflow).
    { (* the next path is the same *)
      destruct St as (f & L & N & <- & _).
      destruct (up_at cfg step1 _ f up L N WF U) as (q' & pa & l & Au & Uq' & Ep & Eq & Ek & Epa).
      assert (Gt : is_sorted cfg = true -> forall y, In y (nodes l) -> sorted_after o (ndata x) (ndata y) = false).
      { intros Hso y Hy. assert (No : o <> []) by (intros E; unfold is_sorted in Hso; rewrite E in Hso; discriminate).
        destruct (Gl No) as (V & G). apply gt_false; auto. apply G.
        rewrite (kl_some _ _ _ Ek). rewrite MPReorder.kerase_roots. auto. }
      destruct (mp_add_eq cfg radix2 step1 (mkDB t sig) f up q' pa l 0 x L WF Au Gt) as (up2 & _ & E2).
      assert (Au' : at_up up (kset s f) q' (option_map (fun z => (pset s (fst z), pset s (snd z))) pa) (kset s l)).
      { split; [apply kset_At; apply Au|]. destruct Au as (_ & Au). destruct up as [p|].
        - destruct Au as (a & -> & A1 & A2). exists a. cbn [option_map fst snd].
          assert (Ea : pset s a = a) by (unfold pset; rewrite A1, Sn; auto). rewrite Ea. split; auto. split; auto.
          unfold kset. rewrite roots_fmap, map_length. auto.
        - destruct Au as (-> & ->). auto. }
      assert (Gt' : is_sorted cfg = true -> forall y, In y (nodes (kset s l)) -> sorted_after o (ndata x) (ndata y) = false).
      { intros Hso y Hy. apply Gt; auto. unfold kset in Hy. rewrite roots_fmap, map_map in Hy. cbn [snd] in Hy.
        apply in_map_iff in Hy. destruct Hy as (z & <- & Hz). rewrite pset_fst. apply in_map_iff. eauto. }
      assert (WF' : wf_ids (kerase (kset s f))) by (rewrite kset_erase; auto).
      destruct (mp_add_eq cfg radix2 step1 (mkDB (map (preset s) t) sig) (kset s f) up q' _ (kset s l) (length (roots k)) x (kset_lay s t f L) WF' Au' Gt') as (up3 & _ & E3).
      assert (En : next_path cfg up q' (kset s l) = next_path cfg up q' l).
      { unfold next_path, kset. rewrite roots_fmap, last_opt_map. destruct (last_opt (roots l)) as [[]|]; auto. }
      rewrite E3, En. rewrite E1 in E2. destruct (next_path cfg up q' l) as [np|e]; cbn [bind] in *; [|congruence].
      cbv zeta in E2. unfold save_row in E2. destruct (existsb _ _) in E2; [discriminate|]. destruct (existsb _ _) in E2; discriminate. }
    rewrite E. cbn [bind]. split; auto. intros (HP & Fi). apply Nf. split; auto. revert Fi. apply (ext_fits cfg radix2 step1). apply append_ext. simpl. auto. }
  set (r1 := mkMP (nid x) (q ++ seg kk) (length q / w + 1) 0 (ndata x)) in *. cbn [db_rows db_sig] in *.
  set (t1 := r1 :: inc_parent t q) in *.
  assert (Sxk : s (nid x) = Some (length (roots k))) by (rewrite Sx by (cbn; auto); cbn [top_nc]; rewrite Nat.eqb_refl; auto).
  destruct (mp_add_preset s t sig F up q kk x (length (roots k)) St U Gl Uq (ex_intro _ up1 E1) Sn Sxk) as (up2 & E2 & Eu2).
  fold r1 t1 in E2. rewrite E2. cbn [bind].
  assert (W1 : wf_ids (append (ups up) (leaf x) F)) by (destruct S1 as (f & _ & _ & _ & ?); auto).
  assert (U1 : is_up (ups up) (append (ups up) (leaf x) F)) by (intros p Ep; apply ids_append_old; auto).
  assert (Ea1 : append (ups up) r (append (ups up) (leaf x) F) = append (ups up) (Cons x Nil r) F) by (rewrite append_append; auto).
  assert (Eup : forall p2, up2 = Some p2 -> exists p, up = Some p /\ m_pk p2 = m_pk p).
  { intros p2 ->. destruct up as [p|]; [|discriminate]. exists p. cbn in Eu2. injection Eu2 as ->. auto. }
  destruct (IH s t1 sig (append (ups up) (leaf x) F) up2) as [(T & rs & E3 & Pk & S3 & Keep)|(E3 & Nf)]; auto.
  - intros HP. eapply compact_add; eauto.
  - rewrite Eu2. auto.
  - intros i Hi Hin. apply ids_append in Hin. destruct Hin as [Hin|[<-|[]]]; [apply (Dr i)|apply Xr]; auto.
  - intros No. destruct (Fo No) as (T1 & T2 & T3). apply values_cons in T2. split; [apply T1|]. split; [tauto|].
    rewrite Eu2. destruct (is_up_kids _ _ U) as [c Ec].
    rewrite (kl_some _ _ _ (append_kids _ (leaf x) _ _ WF W1 Ec)).
    rewrite roots_fapp. simpl. intros c0 y Hc Hy. apply in_app_iff in Hc. destruct Hc as [Hc|[<-|[]]].
    + apply T3; simpl; auto. rewrite (kl_some _ _ _ Ec). auto.
    + destruct T1 as (_ & _ & T1). rewrite Forall_forall in T1. auto.
  - intros p2 Ep. destruct (Eup p2 Ep) as (p & -> & ->). auto.
  - intros i Hi. rewrite Sx by (cbn; auto). cbn [top_nc]. destruct (Nat.eqb_spec (nid x) i) as [E|_]; auto.
    exfalso. apply Xr. rewrite E. apply roots_ids. auto.
  - left. rewrite E3. cbn [bind]. rewrite preset_pk, preset_path, preset_depth.
    exists T, (build_children cfg (m_path r1) (m_depth r1) 0 k ++ rs). split; [auto|].
    split; [rewrite map_app, build_pks, Pk; auto|].
    assert (Hr1 : In r1 T).
    { apply Keep; [left; auto|]. rewrite Eu2. intros E. change (m_pk r1) with (nid x) in E. apply Dx. apply U. auto. }
    split.
    + rewrite Eu2, Ea1 in S3.
      assert (Hr1' : In r1 (map (preset (top_nc r)) T ++ rs)).
      { apply in_app_iff. left. apply in_map_iff. exists r1. split; auto. unfold preset. change (m_pk r1) with (nid x).
        rewrite top_nc_none by auto. auto. }
      assert (G := graft_ok _ _ r1 k S3 Hr1' eq_refl N1 N2 Wk).
      change (m_pk r1) with (nid x) in G. rewrite append_below_all in G by auto.
      eapply stores_perm; [|apply G].
      2:{ intros i Hi Hin. apply ids_append in Hin. destruct Hin as [Hin|Hin]; [apply (Dk i); auto|].
          rewrite ids_cons in Hin. simpl in Hin. destruct Hin as [<-|Hin]; [auto|]. apply (Dkr i); auto. }
      rewrite map_app, map_map. rewrite <- app_assoc. apply Permutation_app.
      * match goal with |- Permutation ?a ?b => replace b with a; [reflexivity|] end. apply map_ext. intros y.
        unfold upd_nc_pk, preset. cbn [top_nc]. rewrite (Nat.eqb_sym (nid x) (m_pk y)).
        destruct (Nat.eqb_spec (m_pk y) (nid x)) as [E|E].
        -- rewrite E. rewrite (top_nc_none r (nid x)) by auto. rewrite E, Nat.eqb_refl. unfold set_nc. rewrite <- E. auto.
        -- destruct (top_nc r (m_pk y)); cbn [set_nc m_pk]; (destruct (Nat.eqb_spec (m_pk y) (nid x)); [tauto|]); auto.
      * rewrite Permutation_app_comm. apply Permutation_app; [reflexivity|].
        match goal with |- Permutation ?a ?b => replace a with b; [reflexivity|] end. symmetry.
        rewrite <- (map_id rs) at 2. apply map_ext_in. intros y Hy. unfold upd_nc_pk.
        destruct (Nat.eqb_spec (m_pk y) (nid x)) as [E|]; auto. exfalso. apply Xr. rewrite <- E.
        apply kids_ids_in. rewrite <- Pk. apply in_map. auto.
    + intros y Hy Ny. apply Keep; [|rewrite Eu2; auto]. right. unfold inc_parent. destruct q as [|d q]; auto.
      apply in_map_iff. exists y. split; auto. unfold upd_nc. destruct (peq (m_path y) (d :: q)) eqn:E; auto.
      apply peq_iff in E. exfalso. destruct up as [p|]; [|discriminate Uq]. destruct Uq as (nd & H1 & H2 & H3).
      apply Ny. cbn. f_equal. rewrite <- H2. destruct St as (f & L & _).
      destruct (lay_in cfg _ _ _ L Hy) as ([py ay] & Ky & ->). destruct (lay_in cfg _ _ _ L H1) as ([pn an] & Kn & ->).
      cbn in E, H3. subst py pn. cbn. rewrite (k_inj cfg step1 _ _ _ _ (proj1 L) Ky Kn). auto.
  - right. rewrite E3. cbn [bind]. split; auto. intros (HP & Fi). apply Nf. split; auto. rewrite Eu2, Ea1.
    revert Fi. apply (ext_fits cfg radix2 step1). apply append_ext. simpl. auto using ext_refl.
Qed.

Lemma insert_all_ok l : forall t, NoDup (map m_pk (t ++ l)) -> NoDup (map m_path (t ++ l)) -> insert_all t l = Ok (rev l ++ t).
Proof.
  induction l as [|r l IH]; intros t N1 N2; auto. cbn [insert_all].
  assert (Ex : existsb (fun x => (m_pk x =? m_pk r) || peq (m_path x) (m_path r)) t = false).
  { apply existsb_false. intros x Hx. apply orb_false_iff. split.
    - apply Nat.eqb_neq. intros E. rewrite map_app in N1. apply NoDup_app_iff in N1. destruct N1 as (_ & _ & N1).
      apply (N1 (m_pk x)); [apply in_map; auto|]. cbn. auto.
    - apply peq_false. intros E. rewrite map_app in N2. apply NoDup_app_iff in N2. destruct N2 as (_ & _ & N2).
      apply (N2 (m_path x)); [apply in_map; auto|]. cbn. auto. }
  rewrite Ex. rewrite IH.
  - cbn [rev]. rewrite <- app_assoc. auto.
  - rewrite map_app in *. cbn [map app] in *. apply (Permutation_NoDup (l := map m_pk t ++ m_pk r :: map m_pk l)); auto.
    symmetry. apply Permutation_middle.
  - rewrite map_app in *. cbn [map app] in *. apply (Permutation_NoDup (l := map m_path t ++ m_path r :: map m_path l)); auto.
    symmetry. apply Permutation_middle.
Qed.

Lemma stores_nodup t F : stores t F -> NoDup (map m_pk t) /\ NoDup (map m_path t).
Proof.
  intros (f & L & _ & <- & WF). split.
  - apply (Permutation_NoDup (Permutation_sym (lay_pks cfg _ _ L))). auto.
  - destruct L as (W & _ & P). apply (Permutation_NoDup (Permutation_map m_path (Permutation_sym P))).
    rewrite map_map. apply (k_NoDup cfg step1 f W).
Qed.

Theorem mp_bulk_create_last next keep_ids db F data parent g : stores (db_rows db) F -> ordered o F ->
  (forall p, parent = Some p -> In (m_pk p) (ids F)) -> describes_tops keep_ids next data g ->
  wf_ids g -> (forall i, In i (ids g) -> ~ In i (ids F)) -> narrow maxstep g ->
  let up := option_map m_pk parent in follows o (kl up F) g ->
  (exists db', mp_load_bulk_create cfg next keep_ids db data parent = Ok (db', map nid (roots g) ++ kids_ids g) /\
     stores (db_rows db') (append up g F)) \/
  (mp_load_bulk_create cfg next keep_ids db data parent = Err PathOverflow /\
   ~ (compact cfg (db_rows db) F /\ fits cfg (append up g F))).
Proof.
  intros St O Hp De Wg D Nw up Fo. unfold mp_load_bulk_create. rewrite (prepare_tops_ok _ _ _ _ De). cbn [bind].
  destruct (tops_ok (compact cfg (db_rows db) F) g (top_nc g) (db_rows db) (db_sig db) F parent) as [(T & rs & E & Pk & S & _)|(E & Nf)]; auto.
  - intros i Ei. destruct parent as [p|]; [|discriminate]. cbn in Ei. injection Ei as <-. auto.
  - intros p ->. apply top_nc_none. intros H. apply (D _ H). auto.
  - assert (E0 : mkDB (map (preset (top_nc g)) (db_rows db)) (db_sig db) = db).
    { destruct db as [t sig]. cbn [db_rows db_sig]. f_equal. rewrite <- (map_id t) at 2. apply map_ext_in. intros y Hy.
      unfold preset. rewrite top_nc_none; auto. intros H. apply (D _ H). eapply stores_in; eauto. }
    rewrite E0 in E. rewrite E. cbn [bind db_rows db_sig].
    destruct (stores_nodup _ _ S) as (ND1 & ND2). rewrite (insert_all_ok rs _ ND1 ND2). cbn [bind]. left.
    eexists. split; [rewrite Pk; reflexivity|]. cbn [db_rows]. eapply stores_perm; [|exact S].
    rewrite Permutation_app_comm. apply Permutation_app; [apply Permutation_rev|reflexivity].
  - right. assert (E0 : mkDB (map (preset (top_nc g)) (db_rows db)) (db_sig db) = db).
    { destruct db as [t sig]. cbn [db_rows db_sig]. f_equal. rewrite <- (map_id t) at 2. apply map_ext_in. intros y Hy.
      unfold preset. rewrite top_nc_none; auto. intros H. apply (D _ H). eapply stores_in; eauto. }
    rewrite E0 in E. rewrite E. auto.
Qed.
End MP.
