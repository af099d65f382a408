(* PropsCost.v - C36: the number of nodes a table operation visits. *)
From Verif Require Export Cost.
From Coq Require Import ZifyBool ZifyNat ZifyN.

Section C36.
Variable W : N.
Hypothesis IPW : ip_width W.
Context {T : Type}.
Variable zeroT : T.
Variable box : T -> option T.
Variable goeq : T -> T -> res bool.

(* For every table a program can build, whatever its number of entries, and every
   prefix: the walk of Match (Get, LongestMatch), of insert (Insert, Update,
   InsertOrUpdate) and of del (Remove) visits at most W + 1 nodes; GetOrInsert
   visits at most W + 1 nodes plus a second visit of the last one.  The counting
   functions return the results of the uninstrumented ones. *)
Theorem C36_bounded_depth : forall (t : tableX T) (p : prefix) (v : option T) (o : insertOpts),
  reachable W zeroT box goeq t -> wf_prefix W p ->
  (fst (Match_c W (tx_trie t) p) = Match W (tx_trie t) p /\ snd (Match_c W (tx_trie t) p) <= W + 1) /\
  (fst (insert_c W (tx_trie t) p v o) = insert W (tx_trie t) p v o /\ snd (insert_c W (tx_trie t) p v o) <= W + 1) /\
  (fst (del_c W (tx_trie t) p) = del W (tx_trie t) p /\ snd (del_c W (tx_trie t) p) <= W + 1) /\
  (fst (GetOrInsert_c W (tx_trie t) p v) = GetOrInsert W (tx_trie t) p v /\ snd (GetOrInsert_c W (tx_trie t) p v) <= W + 2).
Proof.
  intros t p v o Ht Hp. pose proof (ip_HW W IPW) as HW.
  destruct (reach_inv W HW zeroT box goeq _ Ht) as [Hw _].
  assert (D : depth (tx_trie t) <= W + 1).
  { destruct (tx_trie t) as [|q d s h a l r] eqn:E; [cbn; lia|]. rewrite <- E in *.
    pose proof (depth_bound W HW [] (tx_trie t) Hw) as B. rewrite nlen_nil in B. rewrite N.add_0_r in B. apply B. congruence. }
  pose proof (Match_cost W (tx_trie t) p). pose proof (insert_cost W (tx_trie t) p v o). pose proof (del_cost W (tx_trie t) p).
  pose proof (GetOrInsert_cost W HW (tx_trie t) [] p v Hw Hp).
  repeat split; auto using Match_erase, insert_erase, del_erase, GetOrInsert_erase; lia.
Qed.

(* the height field kept in every node is the true height and never overflows *)
Theorem C36_height : forall t, reachable W zeroT box goeq t ->
  height (tx_trie t) = depth (tx_trie t) /\ height (tx_trie t) <= W + 1.
Proof.
  intros t Ht. pose proof (ip_HW W IPW) as HW. destruct (reach_inv W HW zeroT box goeq _ Ht) as [Hw _].
  split; [apply (height_depth W HW [] _ Hw)|]. rewrite (height_depth W HW [] _ Hw).
  destruct (tx_trie t) as [|q d s h a l r] eqn:E; [cbn; lia|]. rewrite <- E in *.
  pose proof (depth_bound W HW [] (tx_trie t) Hw) as B. rewrite nlen_nil, N.add_0_r in B. apply B. congruence.
Qed.
End C36.
