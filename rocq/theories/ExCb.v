(* ExCb.v - concrete cases of C55 *)
From Verif Require Export PropsCb PropsSame HeapCbPure ExHeap.
From Coq Require Import Arith ZifyBool ZifyNat ZifyN.
Local Open Scope prog_scope.

Definition tb3 : tableX N := build [(pf 10 0 0 0 8, 1); (pf 10 1 0 0 16, 2); (pf 10 2 0 0 16, 3)].
Lemma s3_denotes : denotes (fst s3) (snd s3) (tx_trie tb3). Proof. den. Qed.
Lemma tb3_reach : reachable 32 0 boxN goeqN tb3. Proof. apply build_reach. reflexivity. Qed.
Lemma goeqN_eq : forall x y, exists b, goeqN x y = Ok b /\ (b = true <-> x = y).
Proof. intros x y. exists (x =? y). split; [reflexivity|apply N.eqb_eq]. Qed.

(* walking three entries and removing the one with value 2 from the handle: the
   walk still sees all three, the handle ends with two, the snapshot keeps three *)
Definition keep_not_2 (_ : prefix) (v : N) : bool := negb (v =? 2).
Definition pruned := run (walk_table 32 0 (snd s3) (prune 32 goeqN keep_not_2) (snd s3)) (fst s3).
Example C55_remove_ex :
  match snd pruned with
  | Ok (root, true) => denotes (fst pruned) root (tx_trie (build [(pf 10 0 0 0 8, 1); (pf 10 2 0 0 16, 3)])) /\
                       denotes (fst pruned) (snd s3) (tx_trie tb3) /\ root <> snd s3
  | _ => False
  end.
Proof. vm_compute. split; [|split; [|discriminate]]; repeat match goal with |- True => exact I | |- ex _ => eexists | |- _ /\ _ => split | |- _ = _ => reflexivity end. Qed.
Example C55_remove_hyps : exists h' root t', pruned = (h', Ok (root, true)) /\ denotes h' root (tx_trie t').
Proof.
  destruct (C55_remove_while_walking 32 ltac:(left; reflexivity) 0 boxN ltac:(reflexivity) goeqN goeqN_eq tb3 (fst s3) (snd s3) keep_not_2 tb3_reach s3_denotes) as (h' & root & t' & E & D & _).
  exists h', root, t'. split; [exact E|exact D].
Qed.

(* a mapper that also writes every entry it sees to another table, and walks that
   table to number the entries *)
Definition count_up (_ : prefix) (_ : option N) (n : N) : prog N (N * bool) := ret (n + 1, true).
Definition copying (q : prefix) (v : N) (other : ptr) : prog N (ptr * N) :=
  '(n, e) <- h_Insert 32 (defaultComparator goeqN) other q (Some v) ;;
  '(k, go) <- h_WalkE 32 n count_up 0 ;;
  ret (n, 10 * v + k).
Lemma copying_callback q v o : callback 32 goeqN (copying q v o).
Proof.
  unfold copying. apply cl_seq; [apply cl_call; constructor|]. intros [n e]. apply cl_seq; [apply cl_Walk; intros; apply cl_result|]. intros [k g]. apply cl_result.
Qed.
Definition mapped := run (map_table 32 0 boxN goeqN (snd s3) (ceq (tx_eq tb3)) copying None) (fst s3).
(* Map calls it for the join node 10.0.0.0/14 too (C19_refuted), with the zero value *)
Example C55_map_ex :
  match snd mapped, tbl_Map 0 boxN tb3 (Some replay) ([], [11; 2; 23; 34]) with
  | Ok (other, q), Ok ((log, _), t') => denotes (fst mapped) q (tx_trie t') /\ denotes (fst mapped) (snd s3) (tx_trie tb3) /\
      log = [(pf 10 0 0 0 8, 1); (pf 10 0 0 0 14, 0); (pf 10 1 0 0 16, 2); (pf 10 2 0 0 16, 3)] /\
      other <> None
  | _, _ => False
  end.
Proof. vm_compute. repeat match goal with |- True => exact I | |- ex _ => eexists | |- _ /\ _ => split | |- _ = _ => reflexivity | |- _ -> False => discriminate end. Qed.
Example C55_map_hyps : forall d v, exists b, ceq (tx_eq tb3) d (boxN v) = Ok b.
Proof. intros [d|] v; [exists (d =? v)|exists false]; reflexivity. Qed.

(* C56: 10.1.0.0/16 has an entry in tb3, 10.3.0.0/16 has none; Insert of the second
   does return another root *)
Example C56_hyps : PropsTable.stored 32 0 tb3 (pf 10 1 0 0 16) = Some (pf 10 1 0 0 16, 2) /\
  PropsTable.stored 32 0 tb3 (pf 10 3 0 0 16) = None /\ wf_prefix 32 (pf 10 1 0 0 16) /\ wf_prefix 32 (pf 10 3 0 0 16).
Proof. repeat split; vm_compute; congruence. Qed.
Example C56_ex :
  snd (run (h_Insert 32 ieqN (snd s3) (pf 10 1 0 0 16) (Some 9)) (fst s3)) = Ok (snd s3, Some ErrExists) /\
  snd (run (h_Update 32 ieqN (snd s3) (pf 10 3 0 0 16) (Some 9) ieqN) (fst s3)) = Ok (snd s3, Some ErrNoKeyToUpdate) /\
  snd (run (h_del 32 ieqN (pathW 32) (snd s3) (pf 10 3 0 0 16)) (fst s3)) = Ok (snd s3, Some ErrKeyNotFound) /\
  snd (run (h_GetOrInsert 32 ieqN (pathW 32) (snd s3) (pf 10 1 0 0 16) (Some 9)) (fst s3)) = Ok (snd s3, Some 1%nat) /\
  (exists q, snd (run (h_Insert 32 ieqN (snd s3) (pf 10 3 0 0 16) (Some 9)) (fst s3)) = Ok (q, None) /\ q <> snd s3).
Proof. vm_compute. repeat split; try reflexivity. eexists. split; [reflexivity|discriminate]. Qed.
