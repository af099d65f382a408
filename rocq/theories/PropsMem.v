(* PropsMem.v - C54: how many nodes a table or a set keeps alive. *)
From Verif Require Export HeapShare PropsCost3.
From Verif Require Import SetProof.
From Coq Require Import Arith Lia ZifyBool ZifyNat ZifyN.
Local Open Scope nat_scope.

Lemma entries_nodes {T} (t : trie T) : length (entries t) <= node_count t.
Proof.
  induction t as [|p d s h a l IHl r IHr]; [cbn; lia|]. cbn [entries node_count]. rewrite !app_length. destruct a; cbn [length]; lia.
Qed.
(* Ns lists, once each, the nodes that can be reached from p *)
Definition occupies {T} (h : heap T) (p : ptr) (Ns : list nat) : Prop := NoDup Ns /\ forall i, In i Ns <-> reaches h p i.
Lemma occupied W {T} (h : heap T) p k t Ns : wf W k t -> denotes h p t -> occupies h p Ns -> length Ns = node_count t.
Proof.
  intros Hw D [ND HN]. rewrite <- (addrs_nodes h t p D).
  assert (E : forall i, In i Ns <-> In i (addrs h p t)) by (intros i; rewrite HN, (addrs_reaches h t p D); tauto).
  apply Nat.le_antisymm; (apply NoDup_incl_length; [|intros i I; apply E; exact I]); [exact ND|].
  eapply addrs_nodup; eauto.
Qed.

Section Mem.
Variable W : N.
Hypothesis IPW : ip_width W.
Let HW : (0 < W /\ W < 2 ^ 15)%N := ip_HW W IPW.

(* A set keeps fewer than two nodes for each member of the smallest family of
   prefixes that covers exactly its addresses, so fewer than two for each member of
   any such family L, and at least one for each member of the smallest. *)
Theorem C54_set_memory : forall s p (h : heap unit), set_value W s -> denotes h p s ->
  exists Ns, occupies h p Ns /\
  (forall L, Forall (wf_prefix W) L -> exactly W L (mem W s) -> length Ns <= 2 * length L - 1) /\
  exists M, Forall (wf_prefix W) M /\ exactly W M (mem W s) /\ length M <= length Ns.
Proof.
  intros s p h Hs D. assert (Ss : swf W [] s) by (apply value_swf; auto). exists (addrs h p s).
  assert (O : occupies h p (addrs h p s)) by (split; [eapply addrs_nodup; [exact D|exact (proj1 Ss)]|intros i; apply addrs_reaches; exact D]).
  split; [exact O|]. destruct (C26_minimal W IPW s Hs) as (F & EX & _ & _ & MIN). rewrite (addrs_nodes h s p D). split.
  - intros L HL EL. destruct (MIN L HL EL) as [B _]. rewrite stored_entries in B.
    destruct s as [|q d z hh a l r] eqn:E; [cbn; lia|]. rewrite <- E in *. pose proof (nodes_entries W [] s (proj1 Ss) ltac:(congruence)). lia.
  - exists (SetSpec.stored s). split; [exact F|]. split; [exact EX|]. rewrite stored_entries. apply entries_nodes.
Qed.

Context {T : Type}.
Variable zeroT : T.
Variable box : T -> option T.
Variable goeq : T -> T -> res bool.
(* A table keeps at least one and fewer than two nodes for each of its entries. *)
Theorem C54_table_memory : forall t p (h : heap T) L, reachable W zeroT box goeq t -> denotes h p (tx_trie t) -> lists W zeroT t L ->
  exists Ns, occupies h p Ns /\ length L <= length Ns <= 2 * length L - 1.
Proof.
  intros t p h L Ht D [ND HL]. destruct (reach_inv W HW zeroT box goeq _ Ht) as [Hw _]. exists (addrs h p (tx_trie t)).
  split; [split; [eapply addrs_nodup; [exact D|exact Hw]|intros i; apply addrs_reaches; exact D]|].
  rewrite (addrs_nodes h _ p D), (entries_count W IPW zeroT box goeq t L Ht ND HL).
  pose proof (entries_nodes (tx_trie t)) as B. split; [exact B|].
  destruct (tx_trie t) as [|q d z hh a l r] eqn:E; [cbn; lia|]. rewrite <- E in *. pose proof (nodes_entries W [] (tx_trie t) Hw ltac:(congruence)). lia.
Qed.

Hypothesis Hbox : forall v, unbox zeroT (box v) = v.
Hypothesis Hgoeq : forall x y, exists b, goeq x y = Ok b /\ (b = true <-> x = y).
(* After any modifying calls on a table of any size, all the nodes of the new table
   that the snapshot taken before does not already keep are among those that the
   calls copied: at most a path for each call. *)
Theorem C54_snapshot_memory : forall t p (h : heap T) os h' q, reachable W zeroT box goeq t -> comparing box t -> denotes h p (tx_trie t) ->
  edits W zeroT box goeq (tx_eq t) os h p h' q ->
  exists New, length New <= list_sum (map (t_copies W) os) /\
  forall i, reaches h' q i -> reaches h' p i \/ In i New.
Proof.
  intros t p h os h' q Ht Ct Dp He.
  destruct (edits_share W IPW zeroT box Hbox goeq Hgoeq _ _ _ _ _ _ He t eq_refl Ht Ct Dp) as (u & outs & New & Eu & Hu & Du & L & K & LN & Sh & CN).
  exists New. split; [exact LN|]. intros i I. apply (addrs_reaches h' _ _ Du) in I. destruct (Sh i I) as [J|J]; auto. left.
  rewrite <- (addrs_grow h h' K _ _ Dp) in J. apply (addrs_reaches h' _ p (denotes_grow h h' p (tx_trie t) K Dp)). exact J.
Qed.
End Mem.
