(** Properties of concurrent add_root and add_child calls on nested sets (C81). *)
From Coq Require Import List Arith Lia Bool ZArith Permutation.
From Verif Require Import Prelude Forest Fixture SpecFacts SpecSane CommonModel Order History
  NSModel NSInv NSHist PropsNS ConcModel ConcRun ConcNS ConcRoots ConcNSRoots.
Import ListNotations.
Local Open Scope nat_scope.

(** One add_root and any number of add_child calls with one parent per tree, in any
    schedule: none fails, and the rows are those of the finished calls made one after the other.
    Missing: two add_root calls (false, C41_ns_add_root_refuted), calls with different
    parents in one tree (false, C41_ns_refuted), node_order_by. *)
Theorem C81_ns_one_root_partial t F (calls : list growth) schedule : stores t F ->
  NoDup (map (fun c => nid (grown_by c)) calls) ->
  (forall c, In c calls -> ~ In (nid (grown_by c)) (ids F) /\ (forall k x, c = Child k x -> In k (ids F))) ->
  (forall j k x y r s, In (Child j x) calls -> In (Child k y) calls -> In r t -> In s t -> n_pk r = j -> n_pk s = k -> n_tree r = n_tree s -> j = k) ->
  (forall i j c d, nth_error calls i = Some c -> nth_error calls j = Some d -> is_root_call c -> is_root_call d -> i = j) ->
  let begun c := match c with Child k x => ns_add_child k x | Root x => ns_add_root x end in
  let exec t c := do db <- ns_exec [] (mkNSDB t []) (match c with Child k x => CAddChild k x | Root x => CAddRoot x end); Ok (ns_rows db) in
  let W := play n_pk ns_same (all_begin t (map begun calls)) schedule in
  one_by_one exec calls t (map fst (w_log W)) = (w_rows W, w_log W) /\ NoDup (map fst (w_log W)) /\
  Forall (fun e => snd e = None) (w_log W) /\
  stores (w_rows W) (fold_left grow (succeeded calls (w_log W)) F) /\
  (finished W = true -> Permutation (map fst (w_log W)) (seq 0 (length calls))) /\
  exists schedule', finished (play n_pk ns_same W schedule') = true.
Proof. intros H1 H2 H3 H4 H5. exact (ns_one_root t F calls schedule H1 H2 H3 H4 H5). Qed.

(** The add_root begins first and ends between the others. *)
Example C81_ns_example :
  let calls := [Root (nd 21 0); Child 1 (nd 22 0); Child 9 (nd 23 0); Child 1 (nd 24 0)] in
  let W := play n_pk ns_same (all_begin (ns_rows ex_db) (map ns_begun calls)) [0; 1; 2; 2; 1; 2; 1; 2; 1; 2; 0; 2; 1; 0; 3; 2; 3; 1; 1; 3; 3; 3; 3; 3; 3; 3] in
  stores (ns_rows ex_db) ex_F /\ NoDup (map (fun c => nid (grown_by c)) calls) /\
  (forall c, In c calls -> ~ In (nid (grown_by c)) (ids ex_F) /\ (forall k x, c = Child k x -> In k (ids ex_F))) /\
  (forall j k x y r s, In (Child j x) calls -> In (Child k y) calls -> In r (ns_rows ex_db) -> In s (ns_rows ex_db) -> n_pk r = j -> n_pk s = k -> n_tree r = n_tree s -> j = k) /\
  (forall i j c d, nth_error calls i = Some c -> nth_error calls j = Some d -> is_root_call c -> is_root_call d -> i = j) /\
  finished W = true /\ map fst (w_log W) = [2; 0; 1; 3] /\
  map (fun r => (Z.of_nat (n_pk r), n_tree r, n_lft r, n_rgt r)) (get_tree (w_rows W) None None) =
  [(7, 1, 1, 2); (1, 2, 1, 10); (3, 2, 2, 3); (5, 2, 4, 5); (22, 2, 6, 7); (24, 2, 8, 9);
   (2, 3, 1, 12); (4, 3, 2, 5); (6, 3, 3, 4); (9, 3, 6, 11); (10, 3, 7, 8); (23, 3, 9, 10); (21, 4, 1, 2)]%Z.
Proof.
  cbv zeta. split; [apply ex_stores|]. split; [repeat constructor; cbn; intuition lia|]. split.
  { intros c [<-|[<-|[<-|[<-|[]]]]]; (split; [apply has_false; reflexivity|]); intros k x E; try discriminate; injection E as <- _; apply has_spec; reflexivity. }
  split.
  { intros j k x y r s [Hj|[Hj|[Hj|[Hj|[]]]]] [Hk|[Hk|[Hk|[Hk|[]]]]]; try discriminate; injection Hj as <- _; injection Hk as <- _; auto;
      cbn; intros Hr Hs; intuition subst; discriminate. }
  split.
  { intros [|[|[|[|[|i]]]]] [|[|[|[|[|j]]]]] c d Hc Hd; cbn in *; try discriminate; injection Hc as <-; injection Hd as <-; cbn; intuition. }
  vm_compute. auto.
Qed.

Print Assumptions C81_ns_one_root_partial.
