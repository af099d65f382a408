(* ExHeap.v - C42 (tables over value types that == cannot compare) at the level
   of the heap, and concrete heaps that meet the hypotheses of PropsHeap.v. *)
From Verif Require Export PropsHeap ExTable.
From Coq Require Import Arith ZifyBool ZifyNat ZifyN.
Local Open Scope prog_scope.

(* ---------------- C42 ---------------- *)
Section C42.
Variable W : N.
Hypothesis IPW : ip_width W.
Context {T : Type}.
Let HW : 0 < W /\ W < 2 ^ 15 := ip_HW W IPW.

(* Inserting beneath an entry whose value has a type that Go's == cannot compare
   panics, although the two nodes compared differ: copyMutate compares the whole
   structs, whose Data comes before the children.  Here the trie is the single
   entry p -> d and q lies strictly inside p. *)
Theorem C42_uncomparable_values_refuted : forall (ieq : option T -> option T -> res bool) (h : heap T) (i : nat) (p q : prefix) (d v : T) (sz hg : N),
  ieq (Some d) (Some d) = Panic ->
  nth_error h i = Some (mkH p (Some d) sz hg true None None) ->
  wf_prefix W p -> wf_prefix W q -> covers W p q -> plen p < plen q ->
  snd (run (h_Insert W ieq (Some i) q (Some v)) h) = Panic /\
  (* while the tree-level insert succeeds *)
  exists t, Insert W (Node p (Some d) sz hg true Nil Nil) q (Some v) = Ok (t, None).
Proof.
  intros ieq h i p q d v sz hg HP E Wp Wq C L.
  assert (K : exists c m, compare W p q = (compareContains, false, m, c)).
  { pose proof (Key.compare_spec W HW p q Wp Wq) as S. apply covers_pre in C; auto. destruct C as [r Er].
    pose proof (nlen_key W p) as N1. pose proof (nlen_key W q) as N2.
    destruct S as [E0|c x E0|c x E0|k c ra rb rev E1 E2 E3].
    - rewrite E0 in N1. lia.
    - eauto.
    - rewrite E0, nlen_app, nlen_cons in N1. lia.
    - exfalso. rewrite Er, E1, <- app_assoc in E2. apply app_inv_head in E2. cbn in E2. injection E2 as E2. destruct c; discriminate. }
  destruct K as (c & m & K). split.
  - assert (X : wpi (fun i => (i < length h)%nat) h (h_Insert W ieq (Some i) q (Some v)) (fun r _ _ => r = Panic)).
    { unfold h_Insert. apply wpi_alloc; [apply dom_all|]. intros l h1 Nl D1 E1 K1.
      assert (Hi : plus1 l (fun i => (i < length h)%nat) i) by (right; apply nth_error_Some; congruence).
      assert (Ei : nth_error h1 i = Some (mkH p (Some d) sz hg true None None)) by (rewrite K1; auto; apply nth_error_Some; congruence).
      assert (Hl : plus1 l (fun i => (i < length h)%nat) l) by (left; reflexivity).
      assert (Il : i <> l) by (intros ->; apply Nl; apply nth_error_Some; congruence).
      unfold pathW. cbn [h_insert]. eapply wpi_load; [exact Hi|exact Ei|]. eapply wpi_load; [exact Hl|exact E1|].
      cbn [hPrefix hactive Heap.fresh]. rewrite K. cbn [o_flatten andb]. replace (kidp c (mkH p (Some d) sz hg true None None)) with (@None nat) by (destruct c; reflexivity).
      apply wpi_bind. apply wpi_bind. unfold h_insert_nil. cbn [o_insert negb].
      set (S1 := plus1 l (fun i => (i < length h)%nat)) in *.
      apply wpi_mutate. eapply wpi_modify_last; [exact D1|exact Hl|exact E1|].
      intros h2 D2 E2 K2. eexists _, Nil, Nil. split; [exact D2|]. split; [exact Hl|]. split; [exact E2|].
      split; [reflexivity|]. split; [reflexivity|]. intros h3 D3 K3 E3.
      cbv beta iota. unfold ret at 1. cbn [wpi]. cbv beta iota. intros _. apply wpi_bind.
      unfold h_copyMutate.
      assert (Ei3 : nth_error h3 i = Some (mkH p (Some d) sz hg true None None)).
      { rewrite K3 by (split; auto). rewrite K2 by (split; auto). exact Ei. }
      eapply wpi_load; [exact Hi|exact Ei3|]. apply wpi_alloc; [exact D3|]. intros z h4 Nz D4 E4 K4.
      assert (Hz : plus1 z S1 z) by (left; reflexivity).
      assert (Zi : i <> z) by (intros ->; auto).
      apply wpi_bind. apply wpi_mutate. eapply wpi_bind. cbn [wpi]. eapply wpi_modify_last; [exact D4|exact Hz|exact E4|].
      intros h5 D5 E5 K5. cbn [o_flatten]. apply wpi_ret.
      assert (R : repr (without z (plus1 z S1)) h5 (Some l) (mk q (Some v) true Nil Nil)).
      { exists l, None, None. split; [reflexivity|]. assert (l <> z) by (intros ->; auto). split; [split; [right; auto|auto]|].
        split; [|split; reflexivity]. rewrite K5 by (split; [right|]; auto). rewrite K4 by auto. exact E3. }
      exists (w_kid c (Some l) (mkH p (Some d) sz hg true None None)), (if c then Nil else mk q (Some v) true Nil Nil), (if c then mk q (Some v) true Nil Nil else Nil).
      split; [exact D5|]. split; [exact Hz|]. split; [exact E5|].
      split; [destruct c; [reflexivity|exact R]|]. split; [destruct c; [exact R|reflexivity]|].
      intros h6 D6 K6 E6. try (intros _). eapply wpi_load; [exact Hz|exact E6|].
      eapply wpi_load; [right; exact Hi| |].
      { rewrite K6 by (split; [right|]; auto). rewrite K5 by (split; [right|]; auto). rewrite K4 by auto. exact Ei3. }

      assert (PE : forall (a b : hnode T), hPrefix a = p -> hPrefix b = p -> hData a = Some d -> hData b = Some d -> node_eq ieq a b = Panic).
      { intros a b Pa Pb Da Db. unfold node_eq. rewrite Pa, Pb, Da, Db. unfold prefix_eqb. rewrite !N.eqb_refl. cbn [andb negb]. rewrite HP. reflexivity. }
      rewrite PE; [reflexivity| | | |]; destruct c; reflexivity. }
    destruct (wpi_run _ _ _ _ (dom_all h) X) as (S' & Y & _). exact Y.
  - unfold Insert. cbn [insert]. rewrite K. cbn [o_flatten andb].
    destruct c; cbn; eauto.
Qed.
End C42.

(* the hypotheses are met: 10.0.0.0/8 -> 7 of an uncomparable type, insert 10.1.0.0/16 *)
Definition ieq_never (a b : option N) : res bool :=
  match a, b with Some _, Some _ => Panic | None, None => Ok true | _, _ => Ok false end.
Definition leaf8 : hnode N := mkH (pf 10 0 0 0 8) (Some 7) 1 1 true None None.
Example C42_ex : snd (run (h_Insert 32 ieq_never (Some 0%nat) (pf 10 1 0 0 16) (Some 8)) [leaf8]) = Panic.
Proof. reflexivity. Qed.
Example C42_ex_hyps : ieq_never (Some 7) (Some 7) = Panic /\ nth_error [leaf8] 0 = Some leaf8 /\
  wf_prefix 32 (pf 10 0 0 0 8) /\ wf_prefix 32 (pf 10 1 0 0 16) /\ covers 32 (pf 10 0 0 0 8) (pf 10 1 0 0 16).
Proof. repeat split; vm_compute; congruence. Qed.

(* A custom comparator may be finer than == (for floats, 0.0 == -0.0).  Map then
   drops the mapper's result: copyMutate's == finds the old node and the new one
   equal and returns the old one.  Modelled with a type whose two values are ==. *)
Definition ieq_zero (a b : option bool) : res bool :=
  match a, b with Some _, Some _ => Ok true | None, None => Ok true | _, _ => Ok false end.
Definition bits_eq (a b : option bool) : res bool :=
  match a, b with Some x, Some y => Ok (Bool.eqb x y) | None, None => Ok true | _, _ => Ok false end.
Definition leafz : hnode bool := mkH (pf 10 0 0 0 8) (Some true) 1 1 true None None.
Theorem C19_map_comparator_finer_than_equality_refuted :
  let r := run (h_Map ieq_zero (pathW 32) (Some 0%nat) (fun _ _ s => (s, Some false)) bits_eq tt) [leafz] in
  snd r = Ok (tt, Some 0%nat) /\ nth_error (fst r) 0 = Some leafz.
Proof. split; vm_compute; reflexivity. Qed.

(* ---------------- C20 ---------------- *)
Definition ieqN (a b : option N) : res bool :=
  match a, b with Some x, Some y => Ok (x =? y) | None, None => Ok true | _, _ => Ok false end.
Lemma ieqN_ok : ieq_ok ieqN.
Proof.
  intros [x|] [y|]; cbn; eexists; (split; [reflexivity|]); intros E; try discriminate; auto.
  apply N.eqb_eq in E. subst. reflexivity.
Qed.
(* three entries; the snapshot after the second insert is the pointer p2 *)
Definition ins (x : heap N * ptr) (e : prefix * N) : heap N * ptr :=
  let (h', r) := run (h_Insert 32 ieqN (snd x) (fst e) (Some (snd e))) (fst x) in
  match r with Ok (p, _) => (h', p) | _ => (h', None) end.
Definition s0 : heap N * ptr := ([], None).
Definition s2 := ins (ins s0 (pf 10 0 0 0 8, 1)) (pf 10 1 0 0 16, 2).
Definition s3 := ins s2 (pf 10 2 0 0 16, 3).
Definition t2 : trie N := tx_trie (build [(pf 10 0 0 0 8, 1); (pf 10 1 0 0 16, 2)]).
Definition t3 : trie N := tx_trie (build [(pf 10 0 0 0 8, 1); (pf 10 1 0 0 16, 2); (pf 10 2 0 0 16, 3)]).
Ltac den := vm_compute; repeat match goal with |- True => exact I | |- ex _ => eexists | |- _ /\ _ => split | |- _ = _ => reflexivity end.
Lemma s2_denotes : denotes (fst s2) (snd s2) t2. Proof. den. Qed.
(* after the third insert the old pointer denotes the old trie, the new one the new trie *)
Example C20_ex : denotes (fst s3) (snd s2) t2 /\ denotes (fst s3) (snd s3) t3 /\ t2 <> t3 /\ (length (fst s2) < length (fst s3))%nat.
Proof.
  split; [|split; [|split]].
  - assert (E : fst s3 = fst (run (call_prog 32 ieqN (NInsert N (snd s2) (pf 10 2 0 0 16) (Some 3))) (fst s2))) by (vm_compute; reflexivity).
    rewrite E. apply C20_call_changes_no_node. apply s2_denotes.
  - den.
  - vm_compute. discriminate.
  - vm_compute. lia.
Qed.
Lemma t2_wf : wf 32 [] t2.
Proof. destruct (reach_inv 32 ltac:(split; reflexivity) 0 boxN goeqN (build [(pf 10 0 0 0 8, 1); (pf 10 1 0 0 16, 2)])) as [H _]; [apply build_reach; reflexivity|exact H]. Qed.
(* the hypotheses of C20_table_calls_compute are met by this heap *)
Example C20_compute_ex : same_outcome same_tree_err (run (h_Insert 32 ieqN (snd s2) (pf 10 2 0 0 16) (Some 3)) (fst s2))
   (Insert 32 t2 (pf 10 2 0 0 16) (Some 3)).
Proof.
  destruct (C20_table_calls_compute 32 ltac:(split; reflexivity) ieqN ieqN_ok (fst s2) (snd s2) t2 s2_denotes t2_wf (pf 10 2 0 0 16) (Some 3) nil_eq) as [X _].
  exact X.
Qed.
