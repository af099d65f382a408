(* ExSame.v - a concrete case of C56 for sets: {10.0.0.0/24, 10.0.2.0/23} without 10.0.1.0/24 *)
From Verif Require Export PropsSame2 ExWait.
Example C56_sets_hyps : forall a, mem 32 ExSet.S1 a -> mem 32 (setNodeFromPrefix (ExSet.pfx 10 0 1 0 24)) a -> False.
Proof.
  intros a (_ & p & I & P) (_ & q & J & Q). vm_compute in I, J. destruct J as [<-|[]].
  unfold in_prefix in *. destruct I as [<-|[<-|[]]]; cbn [plen paddr] in P, Q.
  - change (32 - 24) with 8 in *. rewrite Q in P. vm_compute in P. discriminate P.
  - change (32 - 24) with 8 in *. change (32 - 23) with 9 in *. change (2 ^ 9) with (2 ^ 8 * 2) in P. rewrite <- !N.div_div in P by discriminate.
    rewrite Q in P. vm_compute in P. discriminate P.
Qed.
Example C56_sets_ex : run (h_Difference 32 (fst sp2) (snd sp2)) (fst sh2) = (fst sh2, Ok (fst sp2)).
Proof.
  destruct C51_sets_ex as (V1 & V2 & D1 & D2 & _).
  exact (C56_difference_disjoint 32 ExSet.W32 _ _ _ _ _ V1 V2 D1 D2 C56_sets_hyps).
Qed.
