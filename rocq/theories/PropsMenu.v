(** Theorems about the menu "Relative to" of the form (C56). *)
From Coq Require Import String Ascii List Arith Bool ZArith Lia Permutation.
From Verif Require Import Prelude Forest SpecFacts SpecSane Fixture AnnModel AnnFacts FormModel FormSpec PropsForm PropsAnn MenuModel MenuFacts.
From Verif Require MPModel MPInv MPReads PropsMP NSModel NSInv NSReads PropsNS ALModel ALInv ALReads ALAnswers PropsAL LTModel LTInv LTReads PropsLT.
Import ListNotations.

(** ** What a browser makes of a label *)

(** There is one way to read HTML without tags. *)
Theorem C56_reading h s : reads h s -> ~ In 60 h /\ forall s', reads h s' -> s' = s.
Proof.
  intros R. split; [|intros s' R'; apply (reads_det h); auto]. induction R as [|c h s N1 N2 R IH|name c h s I R IH].
  - auto.
  - intros [E|H]; auto.
  - intros [E|H]; [discriminate|]. apply in_app_iff in H. destruct H as [H|[H|H]]; [|discriminate|auto].
    revert H. clear - I. cbn in I. repeat (destruct I as [E|I]; [injection E as <- _; cbn; intuition discriminate|]). destruct I.
Qed.

(** Whatever the text of a node is, the browser shows this text, indented by four spaces for
    every level, and the text cannot bring in tags. *)
Theorem C56_label s d : safe s = false ->
  let html := snd (option_html (None, label_from_instance s (Z.of_nat d))) in
  reads html (repeat 160 (4 * (d - 1)) ++ chars s).
Proof. intros H. apply reads_label. auto. Qed.

Example C56_label_example :
  snd (option_html (None, label_from_instance (mkStr false (lit "<b> & 'co' &lt;")) 2)) =
  lit "&nbsp;&nbsp;&nbsp;&nbsp;&lt;b&gt; &amp; &#x27;co&#x27; &amp;lt;" /\
  reads (lit "&nbsp;&nbsp;&nbsp;&nbsp;&lt;b&gt; &amp; &#x27;co&#x27; &amp;lt;") ([160; 160; 160; 160] ++ lit "<b> & 'co' &lt;").
Proof. split; [vm_compute; reflexivity|]. exact (C56_label (mkStr false (lit "<b> & 'co' &lt;")) 2 eq_refl). Qed.

(** A text that the project has marked as safe is taken as it is. *)
Theorem C56_safe_text s d : safe s = true ->
  exists indent, snd (option_html (None, label_from_instance s (Z.of_nat d))) = indent ++ chars s /\
    reads indent (repeat 160 (4 * (d - 1))).
Proof.
  intros H. exists (chars (get_indent (Z.of_nat d))). split; [|apply reads_indent].
  rewrite label_html. unfold conditional_escape. rewrite H. auto.
Qed.

Example C56_safe_example :
  snd (option_html (None, label_from_instance (mkStr true (lit "<b>")) 2)) = lit "&nbsp;&nbsp;&nbsp;&nbsp;<b>".
Proof. vm_compute. reflexivity. Qed.

(** ** The menus *)
Section Menus.
Variable str_of : node -> str.
Hypothesis plain : forall a, safe (str_of a) = false.

(** The menu for a new node (None) shows the whole tree, that for a node of the tree shows it
    without the branch of the node; before that there is an option for no node. *)
Theorem C56_mp_menu cfg t F n : 2 <= MPModel.radix cfg -> 1 <= MPModel.steplen cfg -> MPInv.stores cfg t F ->
  (forall r, n = Some r -> In r t) ->
  exists opts, mp_menu str_of t n = (None, lit "-- root --") :: opts /\
    shows_tree str_of (open_to (option_map MPModel.m_pk n) F) opts.
Proof.
  intros R2 S1 St Hn. eexists. split; [reflexivity|]. apply choices_shown; auto.
  destruct (C42_mp_choices cfg R2 S1 t F St) as [E1 E2].
  apply (rows_leveled MPReads.node_of (fun r => Z.of_nat (MPModel.m_depth r))).
  - apply (PropsMP.stores_wf _ _ _ St).
  - destruct n as [r|]; [apply E2; auto|exact E1].
  - intros r Hr. assert (Hr' : In r t).
    { assert (X : In r (MPModel.get_tree t None None) -> In r t).
      { intros H. apply (Permutation_in _ (isort_perm _ _)) in H. apply filter_In in H. tauto. }
      apply X. destruct n as [q|]; cbn [mp_choices] in Hr; auto. apply filter_In in Hr. tauto. }
    destruct (PropsMP.C07_ancestors cfg R2 S1 t F r St Hr') as (l & El & _ & Ed & _). exists l. split; auto.
Qed.

Theorem C56_ns_menu t F n : NSInv.stores t F -> (forall r, n = Some r -> In r t) ->
  exists opts, ns_menu str_of t n = (None, lit "-- root --") :: opts /\
    shows_tree str_of (open_to (option_map NSModel.n_pk n) F) opts.
Proof.
  intros St Hn. eexists. split; [reflexivity|]. apply choices_shown; auto.
  destruct (C42_ns_choices t F St) as [E1 E2].
  apply (rows_leveled NSReads.row_node NSModel.n_depth).
  - apply (PropsNS.stores_wf _ _ St).
  - destruct n as [r|]; [apply E2; auto|exact E1].
  - intros r Hr. assert (Hr' : In r t).
    { assert (X : In r (NSModel.get_tree t None None) -> In r t).
      { intros H. apply (Permutation_in _ (isort_perm _ _)) in H. apply filter_In in H. tauto. }
      apply X. destruct n as [q|]; cbn [ns_choices] in Hr; auto. apply filter_In in Hr. tauto. }
    destruct (PropsNS.C20_ancestors t F r St Hr') as (l & El & _ & Ed & _). exists l. split; auto. rewrite Ed. lia.
Qed.

Theorem C56_lt_menu cfg t F n : LTInv.stores cfg t F -> (forall r, n = Some r -> In r t) ->
  exists opts, lt_menu str_of t n = (None, lit "-- root --") :: opts /\
    shows_tree str_of (open_to (option_map LTModel.l_pk n) F) opts.
Proof.
  intros St Hn. eexists. split; [reflexivity|]. apply choices_shown; auto.
  destruct (C42_lt_choices cfg t F St) as [E1 E2].
  apply (rows_leveled LTReads.node_of (fun r => Z.of_nat (LTModel.get_depth r))).
  - apply (PropsLT.stores_wf _ _ _ St).
  - destruct n as [r|]; [apply E2; auto|exact E1].
  - intros r Hr. assert (Hr' : In r t).
    { assert (X : In r (LTModel.get_tree t None None) -> In r t).
      { intros H. apply (Permutation_in _ (isort_perm _ _)) in H. apply filter_In in H. tauto. }
      apply X. destruct n as [q|]; cbn [lt_choices] in Hr; auto. apply filter_In in Hr. tauto. }
    destruct (PropsLT.C32_ancestors cfg t F r St Hr') as (l & El & _ & Ed & _). exists l. split; auto.
Qed.

(** The first option of the menu of adjacency lists has another text. *)
Theorem C56_al_menu o t F n : ALInv.stores o t F -> o = [] \/ ALInv.strict o F -> (forall r, n = Some r -> In r t) ->
  exists opts, al_menu str_of o t n = Ok ((None, lit "--------") :: opts) /\
    shows_tree str_of (open_to (option_map ALModel.a_pk n) F) opts.
Proof.
  intros St Hs Hn. assert (AN := PropsAL.C27_reads o t F St Hs). assert (W := PropsAL.stores_wf _ _ _ St).
  destruct (C42_al_choices o t F St Hs) as [(L1 & EL1 & E1) E2].
  destruct (al_listing o t F None St AN) as (L0 & E0 & _ & G0); [intros ? C; discriminate C|].
  assert (X : exists L, al_choices o t n = Ok L /\ (forall x, In x L -> In (ALModel.o_row x) t /\ ALAnswers.good_depth F x) /\
    map ALReads.obj_node L = match option_map ALModel.a_pk n with Some n => offered n F | None => preorder F end).
  { destruct n as [r|].
    - destruct (E2 r (Hn r eq_refl)) as (L & EL & M). exists L. split; auto. split; auto.
      intros x Hx. apply G0. unfold al_choices in EL. rewrite E0 in EL. cbn [bind] in EL.
      destruct (ALModel.get_descendants o t (ALModel.fresh r) true None) as [ds|]; [|discriminate]. cbn [bind] in EL.
      injection EL as <-. apply filter_In in Hx. tauto.
    - exists L1. split; auto. split; auto. intros x Hx. apply G0. unfold al_choices in EL1. rewrite E0 in EL1. injection EL1 as ->. auto. }
  destruct X as (L & EL & G & M). destruct (al_depths_right o t F St L G) as (L' & ED & MD).
  eexists. split; [unfold al_menu; rewrite EL; cbn [bind]; rewrite ED; reflexivity|].
  rewrite <- (map_map (fun x => (ALReads.obj_node (fst x), snd x)) (choice str_of)). apply choices_shown; auto.
  rewrite MD. apply (rows_leveled ALReads.obj_node (fun n => match ancestors_of (nid (ALReads.obj_node n)) F with Some A => Z.of_nat (S (length A)) | None => 0%Z end)); auto.
  intros x Hx. destruct (G x Hx) as (H1 & H2). destruct (al_depth_right o t F x St H1 H2) as (A & c & EA & _).
  exists A. unfold ALReads.obj_node. cbn [ALInv.row_node nid]. rewrite EA. auto.
Qed.

(** The options tell the tree, with the keys and texts of the nodes. *)
Theorem C56_faithful F G opts : (forall a, hd_error (chars (str_of a)) <> Some 160) ->
  shows_tree str_of F opts -> shows_tree str_of G opts ->
  fmap (fun a => (nid a, chars (str_of a))) F = fmap (fun a => (nid a, chars (str_of a))) G.
Proof.
  intros Hh HF HG. apply (outline_inj _ 1 _ [] []); cbn; auto. rewrite !app_nil_r, !outline_fmap.
  assert (L : forall (f : forest node) d x, In x (preorder_d d f) -> d <= fst x).
  { induction f as [|a k IHk r IHr]; intros d x; [intros []|]. intros [<-|H]; cbn; auto. apply in_app_iff in H.
    destruct H as [H|H]; [apply IHk in H; lia|auto]. }
  assert (LF := L F 1). assert (LG := L G 1). unfold shows_tree in *. revert HF HG LF LG.
  generalize (preorder_d 1 F) (preorder_d 1 G). intros A B HF. revert B.
  induction HF as [|o x opts A (Ek & Er) HF IH]; intros B HG LA LB; inversion HG as [|? y ? B' (Ek' & Er') HG']; subst; auto.
  cbn [map]. f_equal.
  - assert (E := reads_det _ _ _ Er Er').
    destruct (indented_inj (fst x) (fst y) (chars (str_of (snd x))) (chars (str_of (snd y)))) as [E1 E2]; auto.
    + apply LA. left. auto.
    + apply LB. left. auto.
    + rewrite Ek in Ek'. injection Ek' as Ek'. congruence.
  - apply IH; auto; intros z Hz; [apply LA|apply LB]; right; auto.
Qed.
End Menus.

(** The example tree 7; 1(3,5); 2(4(6),9(10)); the text of a node is a less-than sign and one x for every
    unit of its key. *)
Definition marks (a : node) : str := mkStr false (60 :: repeat 120 (nid a)).

Definition ex_opts : list (option nat * text) :=
  [(Some 7, lit "&lt;xxxxxxx"); (Some 2, lit "&lt;xx"); (Some 4, lit "&nbsp;&nbsp;&nbsp;&nbsp;&lt;xxxx");
   (Some 6, lit "&nbsp;&nbsp;&nbsp;&nbsp;&nbsp;&nbsp;&nbsp;&nbsp;&lt;xxxxxx");
   (Some 9, lit "&nbsp;&nbsp;&nbsp;&nbsp;&lt;xxxxxxxxx");
   (Some 10, lit "&nbsp;&nbsp;&nbsp;&nbsp;&nbsp;&nbsp;&nbsp;&nbsp;&lt;xxxxxxxxxx")].

(** The menus for node 1, whose branch 1(3,5) is left out. *)
Example C56_menu_example :
  option_map (fun r => mp_menu marks (MPModel.db_rows PropsMP.ex_db) (Some r))
    (find (fun r => MPModel.m_pk r =? 1) (MPModel.db_rows PropsMP.ex_db)) = Some ((None, lit "-- root --") :: ex_opts) /\
  option_map (fun r => ns_menu marks (NSModel.ns_rows PropsNS.ex_db) (Some r))
    (find (fun r => NSModel.n_pk r =? 1) (NSModel.ns_rows PropsNS.ex_db)) = Some ((None, lit "-- root --") :: ex_opts) /\
  option_map (fun r => lt_menu marks (LTModel.lt_rows PropsLT.ex_db) (Some r))
    (find (fun r => LTModel.l_pk r =? 1) (LTModel.lt_rows PropsLT.ex_db)) = Some ((None, lit "-- root --") :: ex_opts) /\
  option_map (fun r => al_menu marks [] PropsAL.ex_t (Some r))
    (find (fun r => ALModel.a_pk r =? 1) PropsAL.ex_t) = Some (Ok ((None, lit "--------") :: ex_opts)).
Proof. vm_compute. auto. Qed.

Example C56_shows_example : shows_tree marks (remove 1 ex_F) ex_opts /\ (forall a, hd_error (chars (marks a)) <> Some 160).
Proof.
  split; [|discriminate].
  destruct (C56_ns_menu marks (fun _ => eq_refl) (NSModel.ns_rows PropsNS.ex_db) ex_F
    (find (fun r => NSModel.n_pk r =? 1) (NSModel.ns_rows PropsNS.ex_db)) PropsNS.ex_stores) as (opts & E & H).
  - intros r E. apply find_some in E. tauto.
  - replace ex_opts with opts; [exact H|]. assert (X := proj1 (proj2 C56_menu_example)).
    destruct (find _ _) as [r|]; [|discriminate]. cbn [option_map] in X. rewrite E in X. injection X as X. auto.
Qed.

(** Texts that start with a no-break space can make two trees look alike. *)
Theorem C56_spaces_refuted : exists str_of F G opts, (forall a, safe (str_of a) = false) /\
  shows_tree str_of F opts /\ shows_tree str_of G opts /\ F <> G /\ map fst opts = [Some 1; Some 2].
Proof.
  set (f := fun a => mkStr false (match ndata a with [None] => [160; 160; 160; 160] | _ => [] end ++ lit "x")).
  exists f, (Cons (nd 1 0) (Cons (nd 2 0) Nil Nil) Nil), (Cons (nd 1 0) Nil (Cons (mkNode 2 [None]) Nil Nil)),
    [(Some 1, lit "x"); (Some 2, lit "&nbsp;&nbsp;&nbsp;&nbsp;x")].
  assert (I : In (lit "nbsp", 160) references) by (cbn; tauto).
  assert (X : reads (lit "x") (lit "x")) by (apply reads_char; [discriminate|discriminate|apply reads_nil]).
  assert (Y : reads (lit "&nbsp;&nbsp;&nbsp;&nbsp;x") ([160; 160; 160; 160] ++ lit "x")).
  { change (lit "&nbsp;&nbsp;&nbsp;&nbsp;x") with
      (38 :: lit "nbsp" ++ 59 :: 38 :: lit "nbsp" ++ 59 :: 38 :: lit "nbsp" ++ 59 :: 38 :: lit "nbsp" ++ 59 :: lit "x").
    do 4 (apply reads_ref; [exact I|]). exact X. }
  split; [auto|]. split; [|split; [|split; [discriminate|reflexivity]]];
    (constructor; [split; [reflexivity|exact X]|constructor; [split; [reflexivity|exact Y]|constructor]]).
Qed.

Print Assumptions C56_reading.
Print Assumptions C56_label.
Print Assumptions C56_safe_text.
Print Assumptions C56_mp_menu.
Print Assumptions C56_ns_menu.
Print Assumptions C56_lt_menu.
Print Assumptions C56_al_menu.
Print Assumptions C56_faithful.
Print Assumptions C56_spaces_refuted.
