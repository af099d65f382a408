(* ExWait.v - concrete cases for C38 on any schedule, C49, C50 and C51. *)
From Verif Require Export ExConc PropsWeak PropsCost2.
From Verif Require ExHeap ExSet ExTable.
From Coq Require Import Arith Lia.
Local Open Scope nat_scope.

Notation txec := (table_exec 32 0%N (@Some N) goeqN).
(* the second writer of [conflict] panics, and it was overlapped *)
Example C49_ex : exists ls st, txec false ls st /\ exists l1 l2, ls = l1 ++ Ret 2 RPanic :: l2 /\
  current l1 2 = Some (KWrite (Some 0) (OpInsert None 5%N) []) /\ overlapped (visible l1) 2 0.
Proof.
  destruct C38_tables_ex as (ls & st & H & V).
  assert (I2 : In (Ret 2 RPanic) ls).
  { assert (X : In (Ret 2 RPanic) (visible ls)) by (rewrite V; cbn; tauto). clear -X. induction ls as [|[| |] ls IH]; cbn in *; [auto|destruct X as [[=]|X]; auto|destruct X as [X|X]; auto|auto]. }
  apply in_split in I2. destruct I2 as (l1 & l2 & E). exists ls, st. split; auto. exists l1, l2. split; auto.
  assert (V1 : visible l1 = [Inv 0 kNew; Ret 0 (RHandle 0); Inv 1 kInsert; Inv 2 (KWrite (Some 0) (OpInsert None 5%N) []); Ret 1 yes]).
  { rewrite E in V. assert (VA : forall a b : list (label tcall (tout N)), visible (a ++ b) = visible a ++ visible b) by (intros a b; induction a as [|[| |] a IH]; cbn; congruence).
    rewrite VA in V. cbn [visible] in V.
    assert (SP : forall a b c : list (label tcall (tout N)), a ++ Ret 2 RPanic :: b = c ++ [Ret 2 RPanic] -> ~ In (Ret 2 RPanic) c -> a = c).
    { intros a. induction a as [|x a IH]; intros b [|y c] Q NI; cbn in Q; auto.
      - injection Q as <- Q. exfalso. apply NI. left. reflexivity.
      - injection Q as -> Q. destruct a; discriminate.
      - injection Q as -> Q. f_equal. eapply IH; [exact Q|]. intros J. apply NI. right. exact J. }
    eapply SP; [exact V|]. cbn. intuition discriminate. }
  split.
  - unfold current. rewrite <- pend_visible, V1. reflexivity.
  - rewrite V1. exists [Inv 0 kNew; Ret 0 (RHandle 0); Inv 1 kInsert; Inv 2 (KWrite (Some 0) (OpInsert None 5%N) [])], [Ret 1 yes], 1, kInsert.
    repeat split; try discriminate. intros r [|[]]. discriminate.
Qed.

(* thread 1 stands in the middle of its Remove while thread 2 has done a whole
   Insert: C50 applies to this state *)
Definition midway := firstn 30 schedule.
Example C50_ex : exists ls st n, txec true ls st /\ inside st 1 kRemove /\ refers st kRemove /\
  visible ls = [Inv 0 kNew; Ret 0 (RHandle 0); Inv 1 kRemove; Inv 2 kInsert; Ret 2 yes] /\ length ls = 15 /\
  table_taken 32 0%N (@Some N) goeqN true 1 ls st n /\ n < t_steps 32 kRemove /\ t_steps 32 kRemove = 448.
Proof.
  assert (X : option_map (fun x => (visible (fst x), length (fst x), c_threads (snd x) 1, length (c_cells (snd x)))) (trun (c_init None) [] midway)
     = Some ([Inv 0 kNew; Ret 0 (RHandle 0); Inv 1 kRemove; Inv 2 kInsert; Ret 2 yes], 15, Some (kRemove, Loaded None), 1)) by (vm_compute; reflexivity).
  destruct (trun (c_init None) [] midway) as [[ls st]|] eqn:E; [|discriminate].
  cbn [option_map fst snd] in X. injection X as V L Th Cs.
  assert (H : txec true ls st).
  { eapply run_ok; [|apply ce_init|exact E].
    assert (WF : wf_prefix 32 (mkPrefix 167772161 32)) by (split; vm_compute; congruence).
    apply Forall_forall. intros x Hx. unfold midway, schedule in Hx. cbn in Hx.
    repeat (destruct Hx as [<-|Hx]; [cbn; auto; fail|]). contradiction. }
  assert (Hi : inside st 1 kRemove) by (eexists; exact Th).
  destruct (C50_tables_bounded 32 0%N (@Some N) goeqN true ls st 1 kRemove H Hi) as (n & Hn & Lt).
  exists ls, st, n. repeat split; auto.
  - intros c [= <-]. rewrite Cs. lia.
Qed.

(* three entries; inserting the third one copies the root's path: three new nodes *)
Example C51_ex : allocated (h_Insert 32 ExHeap.ieqN (snd ExHeap.s2) (ExTable.pf 10 2 0 0 16) (Some 3%N)) (fst ExHeap.s2) = 3 /\
  instructions (h_Insert 32 ExHeap.ieqN (snd ExHeap.s2) (ExTable.pf 10 2 0 0 16) (Some 3%N)) (fst ExHeap.s2) = 26.
Proof. vm_compute. split; reflexivity. Qed.

(* the walk of the table of two entries: two loads *)
Example C51_walk_ex : exists L, lists 32 0%N (ExTable.build [(ExTable.pf 10 0 0 0 8, 1%N); (ExTable.pf 10 1 0 0 16, 2%N)]) L /\ length L = 2 /\
  instructions (t_rprog 32 0%N (RWalk (fun _ => true)) (Some (snd ExHeap.s2, None)) []) (fst ExHeap.s2) = 2.
Proof.
  assert (Rt : reachable 32 0%N (@Some N) goeqN (ExTable.build [(ExTable.pf 10 0 0 0 8, 1%N); (ExTable.pf 10 1 0 0 16, 2%N)])) by (apply ExTable.build_reach; vm_compute; reflexivity).
  destruct (listed 32 ExSet.W32 0%N (@Some N) goeqN _ Rt) as (L & HL & E). exists L. split; [exact HL|]. rewrite E. split; vm_compute; reflexivity.
Qed.
(* the set {10.0.0.0/24, 10.0.2.0/23}: taking 10.0.0.7 away *)
Definition sh : heap unit * res ptr :=
  run (pbind (h_setNodeFromPrefix (ExSet.pfx 10 0 0 0 24)) (fun a => pbind (h_setNodeFromPrefix (ExSet.pfx 10 0 2 0 23)) (fun b => h_Union 32 a b))) [].
Definition sp : ptr := match snd sh with Ok p => p | _ => None end.
Example C51_set_ex : set_value 32 ExSet.S1 /\ denotes (fst sh) sp ExSet.S1 /\
  allocated (s_wprog 32 (WRemove (APrefix (mkPrefix (ExSet.ip4 10 0 0 7) 32))) (sp, tt) []) (fst sh) = 25 /\
  instructions (s_wprog 32 (WRemove (APrefix (mkPrefix (ExSet.ip4 10 0 0 7) 32))) (sp, tt) []) (fst sh) = 135.
Proof.
  split; [apply ExSet.S1_value|]. split; [ExHeap.den|]. split; vm_compute; reflexivity.
Qed.
(* that set and {10.0.1.0/24}: they join to one /22; the first without the second,
   which is all of it, and their intersection, which is empty *)
Definition sh2 : heap unit * res (ptr * ptr) :=
  run (pbind (h_setNodeFromPrefix (ExSet.pfx 10 0 0 0 24)) (fun a => pbind (h_setNodeFromPrefix (ExSet.pfx 10 0 2 0 23)) (fun b =>
       pbind (h_Union 32 a b) (fun s => pbind (h_setNodeFromPrefix (ExSet.pfx 10 0 1 0 24)) (fun t => ret (s, t)))))) [].
Definition sp2 : ptr * ptr := match snd sh2 with Ok p => p | _ => (None, None) end.
Definition sarg2 : list (ptr * unit) := [(fst sp2, tt); (snd sp2, tt)].
Example C51_sets_ex : set_value 32 ExSet.S1 /\ set_value 32 (setNodeFromPrefix (ExSet.pfx 10 0 1 0 24)) /\
  denotes (fst sh2) (fst sp2) ExSet.S1 /\ denotes (fst sh2) (snd sp2) (setNodeFromPrefix (ExSet.pfx 10 0 1 0 24)) /\
  (allocated (s_bprog 32 (BUnion ASet) sarg2) (fst sh2) = 2 /\ instructions (s_bprog 32 (BUnion ASet) sarg2) (fst sh2) = 19) /\
  (allocated (s_bprog 32 (BDifference ASet) sarg2) (fst sh2) = 0 /\ instructions (s_bprog 32 (BDifference ASet) sarg2) (fst sh2) = 6) /\
  (allocated (s_bprog 32 (BIntersection ASet) sarg2) (fst sh2) = 0 /\ instructions (s_bprog 32 (BIntersection ASet) sarg2) (fst sh2) = 6).
Proof.
  split; [apply ExSet.S1_value|]. split; [apply (sv_arg 32 ExSet.never_s (Some (PrefixSet (ExSet.pfx 10 0 1 0 24)))); [apply ExSet.never_s_ok|constructor; split; vm_compute; congruence|reflexivity]|]. split; [ExHeap.den|]. split; [ExHeap.den|].
  repeat split; vm_compute; reflexivity.
Qed.
