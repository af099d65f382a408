(* ExCost3.v - concrete cases for C53 and C54. *)
From Verif Require Export ExWait PropsMem.
From Verif Require ExHeap ExTable.
From Coq Require Import Arith Lia.
Local Open Scope nat_scope.

Notation pf := ExTable.pf.
Notation wr o p := (t_wprog 32 0%N (@Some N) goeqN o (p, Some (defaultComparator goeqN)) []).
Notation df p q := (@t_rprog 32 N 0%N (RDiff true true true false (fun _ => true)) (Some (p, Some (defaultComparator goeqN))) [(q, Some (defaultComparator goeqN))]).
Definition next (o : op N) (s : heap N * ptr) : heap N * ptr :=
  match run (wr o (snd s)) (fst s) with (h, Ok (Some q, _)) => (h, q) | (h, _) => (h, snd s) end.

(* 10.0.0.0/8 and 10.1.0.0/16, then 10.2.0.0/16 comes and 10.1.0.0/16 goes *)
Definition two := ExTable.build [(pf 10 0 0 0 8, 1%N); (pf 10 1 0 0 16, 2%N)].
Definition os2 : list (op N) := [OpInsert (Some (pf 10 2 0 0 16)) 3%N; OpRemove (Some (pf 10 1 0 0 16))].
Definition e1 := next (OpInsert (Some (pf 10 2 0 0 16)) 3%N) ExHeap.s2.
Definition e2 := next (OpRemove (Some (pf 10 1 0 0 16))) e1.
Example C53_ex : reachable 32 0%N (@Some N) goeqN two /\ comparing (@Some N) two /\ denotes (fst ExHeap.s2) (snd ExHeap.s2) (tx_trie two) /\
  edits 32 0%N (@Some N) goeqN (tx_eq two) os2 (fst ExHeap.s2) (snd ExHeap.s2) (fst e2) (snd e2) /\
  instructions (df (snd ExHeap.s2) (snd e2)) (fst e2) = 6 /\ 4 * changes 32 os2 = 4 * 71.
Proof.
  split; [apply ExTable.build_reach; vm_compute; reflexivity|].
  split; [split; [eexists; vm_compute; reflexivity|exists N.eqb; split; [apply ExTable.build_decides|intros v; apply N.eqb_refl]]|].
  split; [apply ExHeap.s2_denotes|]. split; [|split; vm_compute; reflexivity].
  assert (WP : forall a b c d n, ExTable.wfb (pf a b c d n) = true -> wf_prefix 32 (pf a b c d n)) by (intros; apply ExTable.wfb_ok; auto).
  eapply ed_call; [apply WP; vm_compute; reflexivity|vm_compute; reflexivity|].
  eapply ed_call; [apply WP; vm_compute; reflexivity|vm_compute; reflexivity|]. 
  match goal with |- edits _ _ _ _ _ _ ?h ?p ?h' ?q => assert (Eh : h = h') by (vm_compute; reflexivity); assert (Ep : p = q) by (vm_compute; reflexivity); rewrite Eh, Ep end.
  apply ed_none.
Qed.

(* sixty entries: one of them gets another value.  Diff loads fourteen nodes, with
   the callback for unchanged entries it loads them all. *)
Definition sixty : heap N * ptr :=
  fold_left (fun s i => next (OpInsert (Some (pf 10 (N.of_nat i) 0 0 16)) (N.of_nat i)) s) (seq 0 60) ([], None).
Definition later := next (OpUpdate (Some (pf 10 33 0 0 16)) 7%N) sixty.
Example C53_sixty : instructions (df (snd sixty) (snd later)) (fst later) = 14 /\
  instructions (@t_rprog 32 N 0%N (RDiff true true true true (fun _ => true)) (Some (snd sixty, Some (defaultComparator goeqN))) [(snd later, None)]) (fst later) = 238.
Proof. vm_compute. split; reflexivity. Qed.

(* the set {10.0.0.0/24, 10.0.2.0/23} is kept in three nodes, the table of two
   entries in two *)
Example C54_ex : set_value 32 ExSet.S1 /\ denotes (fst sh) sp ExSet.S1 /\
  (exists Ns, occupies (fst sh) sp Ns /\ length Ns = 3) /\ length (SetSpec.stored ExSet.S1) = 2 /\
  denotes (fst ExHeap.s2) (snd ExHeap.s2) (tx_trie two) /\ (exists L, lists 32 0%N two L /\ length L = 2).
Proof.
  assert (D : denotes (fst sh) sp ExSet.S1) by ExHeap.den.
  split; [apply ExSet.S1_value|]. split; [exact D|]. split; [|split; [vm_compute; reflexivity|split; [apply ExHeap.s2_denotes|]]].
  - destruct (C54_set_memory 32 ExSet.W32 ExSet.S1 sp (fst sh) ExSet.S1_value D) as (Ns & O & _). exists Ns. split; [exact O|].
    rewrite (occupied 32 (fst sh) sp [] ExSet.S1 Ns (proj1 (value_swf 32 (ip_HW 32 ExSet.W32) _ ExSet.S1_value)) D O). vm_compute. reflexivity.
  - destruct (listed 32 ExSet.W32 0%N (@Some N) goeqN two) as (L & HL & E); [apply ExTable.build_reach; vm_compute; reflexivity|].
    exists L. split; [exact HL|]. rewrite E. vm_compute. reflexivity.
Qed.
