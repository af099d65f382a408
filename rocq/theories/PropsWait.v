(* PropsWait.v - C50: no call waits for another goroutine; C51: what a
   modification copies. *)
From Verif Require Export PropsConc ConcWait2 PropsHeap.
From Coq Require Import Arith Lia.
Local Open Scope nat_scope.
Notation width W := (N.to_nat W) (only parsing).

Lemma both_sides_le K f : both_sides K f <= K * 2 ^ f.
Proof. pose proof (both_sides_pow K f). lia. Qed.

Section Tables.
Variable W : N.
Context {T : Type}.
Variable zeroT : T.
Variable box : T -> option T.
Variable goeq : T -> T -> res bool.
Notation tcall := (call (option (comparator T)) (op T) (t_rop T) (t_bop T)).
Notation w := (N.to_nat W).
Definition t_wsteps (o : op T) : nat :=
  match o with
  | OpInsert _ _ | OpUpdate _ _ | OpInsertOrUpdate _ _ => 14 * (w + 2) + 4
  | OpGetOrInsert _ _ => 27 * (w + 2) + 6
  | OpRemove _ => 13 * (w + 2) + 2
  end.
Definition t_rsteps (r : t_rop T) : nat :=
  match r with
  | RNumEntries => 1
  | RGet _ | RLongestMatch _ => w + 3
  | RWalk _ | RDiff _ _ _ _ _ => 2 * 2 ^ fuelW W
  end.
Definition t_bsteps (b : t_bop T) : nat := 16 * 2 ^ (w + 2).
Lemma path_eq : pathW W = w + 2. Proof. clear. unfold pathW. lia. Qed.
Lemma t_wi_write o x vs : exists a, within (t_wsteps o) a (t_wprog W zeroT box goeq o x vs).
Proof.
  pose proof path_eq as P. destruct x as [p e]. destruct o as [q v|q v|q v|q v|q]; cbn [t_wprog t_wsteps]; rewrite <- ?P; eexists.
  - eapply wi_bind; [apply wi_Insert|lia|apply le_n|intros [n [er|]]]; w1.
  - eapply wi_bind; [apply wi_Update|lia|apply le_n|intros [n [er|]]]; w1.
  - eapply wi_bind; [apply wi_InsertOrUpdate|lia|apply le_n|intros]; w1.
  - eapply wi_bind; [apply wi_GetOrInsert|lia|apply le_n|intros [n r]]; repeat w1.
  - eapply wi_bind; [apply wi_del|lia|apply le_n|intros [n [er|]]]; w1.
Qed.
Lemma wi_find p q : within (w + 3) 0 (@t_find W T p q).
Proof.
  clear zeroT box goeq. unfold t_find. eapply wi_bind; [apply wi_Match|rewrite path_eq; lia|lia|intros [l|]]; [|w1]. rewrite path_eq. repeat w1.
Qed.
Lemma t_wi_read r x vs : exists a, within (t_rsteps r) a (@t_rprog W T zeroT r x vs).
Proof.
  exists 0. destruct x as [[p e]|]; cbn [t_rprog]; [|destruct r; w1]. destruct r as [|q|q|go|hc hl hr hu go]; cbn [t_rsteps].
  - repeat w1.
  - eapply wi_bind; [apply wi_find|lia|lia|intros [[np d]|]]; [wif; w1|w1].
  - eapply wi_bind; [apply wi_find|lia|lia|intros [[np d]|]]; w1.
  - unfold h_Walk, h_Diff. eapply wi_bind; [apply wi_diff|apply both_sides_le|lia|intros [l b]]. w1.
  - destruct vs as [|[q e'] [|]]; try w1. unfold h_Diff. eapply wi_bind; [apply wi_diff|apply both_sides_le|lia|intros [l b]]. w1.
Qed.
Lemma t_wi_build b vs : exists a, within (t_bsteps b) a (t_bprog W zeroT box goeq b vs).
Proof.
  exists (both_sides 1 (pathW W)). destruct b as [St mapper st]. cbn [t_bprog]. destruct vs as [|[p e] [|]]; try w1. destruct mapper as [g|]; [|w1].
  eapply wi_bind; [apply wi_Map| |lia|intros [s n]; w1]. unfold t_bsteps. rewrite <- path_eq. apply both_sides_le.
Qed.
(* the bound for each call, in instructions of its own thread: loads, stores and
   allocations of nodes, loads of the root, the compare-and-swap, the return *)
Definition t_steps (k : tcall) : nat :=
  match k with
  | KWrite (Some _) (OpInsert _ _) _ | KWrite (Some _) (OpUpdate _ _) _ | KWrite (Some _) (OpInsertOrUpdate _ _) _ => 14 * (w + 2) + 8
  | KWrite (Some _) (OpGetOrInsert _ _) _ => 27 * (w + 2) + 10
  | KWrite (Some _) (OpRemove _) _ => 13 * (w + 2) + 6
  | KRead _ RNumEntries _ => 4
  | KRead _ (RGet _) _ | KRead _ (RLongestMatch _) _ => w + 6
  | KRead _ (RWalk _) _ | KRead _ (RDiff _ _ _ _ _) _ => 2 * 2 ^ (2 * w + 6) + 3
  | KBuild _ _ => 16 * 2 ^ (w + 2) + 3
  | _ => 2
  end.
Lemma t_steps_eq k : call_steps t_wsteps t_rsteps t_bsteps k = t_steps k.
Proof. unfold t_steps, call_steps, t_wsteps, t_rsteps, t_bsteps, fuelW. destruct k as [|[c|] [] a|x [] a|b a|h|s]; reflexivity || lia. Qed.
Notation table_exec := (table_exec W zeroT box goeq).
Notation table_step := (cstep (t_wprog W zeroT box goeq) (t_rprog W zeroT) (t_bprog W zeroT box goeq) None t_bext (t_thaw goeq) (t_call_ok W box goeq)).
Definition table_taken := taken (t_wprog W zeroT box goeq) (t_rprog W zeroT) (t_bprog W zeroT box goeq) None t_bext (t_thaw goeq) (t_call_ok W box goeq).
Definition table_alone := alone (t_wprog W zeroT box goeq) (t_rprog W zeroT) (t_bprog W zeroT box goeq) None t_bext (t_thaw goeq) (t_call_ok W box goeq).

(* C50: on every schedule the number of steps a call has taken stays below its
   bound, however many other calls run meanwhile *)
Theorem C50_tables_bounded : forall rr ls st i k, table_exec rr ls st -> inside st i k ->
  exists n, table_taken rr i ls st n /\ n < t_steps k.
Proof.
  intros rr ls st i k H Hi. destruct (exec_taken _ _ _ _ _ _ _ _ _ _ t_wi_write t_wi_read t_wi_build rr i ls st H) as [n Hn].
  exists n. split; [exact Hn|]. rewrite <- t_steps_eq. eapply bounded_steps; eauto using t_wi_write, t_wi_read, t_wi_build.
Qed.
Theorem C50_tables_bounded_all : forall rr ls st i k n, table_taken rr i ls st n -> inside st i k -> n < t_steps k.
Proof. intros rr ls st i k n H Hi. rewrite <- t_steps_eq. eapply bounded_steps; eauto using t_wi_write, t_wi_read, t_wi_build. Qed.
(* no state of the other threads keeps a call from taking its next step *)
Theorem C50_tables_never_blocked : forall ls st i k, table_exec true ls st -> inside st i k -> refers st k ->
  exists l st', table_step true st l st' /\ moves i st st'.
Proof. intros ls st i k H Hi R. eapply never_blocked; eauto using t_wi_write, t_wi_read, t_wi_build. Qed.
(* so that it can finish even if all others stop *)
Theorem C50_tables_finish_alone : forall ls st i k n, table_taken true i ls st n -> inside st i k -> refers st k ->
  exists m r st', table_alone i st (repeat Tau m ++ [Ret i r]) st' /\ n + m < t_steps k.
Proof. intros ls st i k n H Hi R. rewrite <- t_steps_eq. eapply finishes_alone; eauto using t_wi_write, t_wi_read, t_wi_build. Qed.
End Tables.

Section Sets.
Variable W : N.
Notation scall := (call unit s_wop s_rop s_bop).
Notation w := (N.to_nat W).
Definition s_bound : nat := 45 * 2 ^ (4 * w + 12).
(* P steps for one traversal of two tries *)
Notation P := (2 ^ (2 * w + 6)).
Lemma s_bound_eq : s_bound = 45 * (P * P).
Proof. unfold s_bound. rewrite <- Nat.pow_add_r. do 2 f_equal. lia. Qed.
Lemma P_pos : 1 <= P. Proof. pose proof (Nat.pow_nonzero 2 (2 * w + 6)). lia. Qed.
Lemma path_P : 2 ^ pathW W <= P. Proof. apply Nat.pow_le_mono_r; [lia|]. unfold pathW. lia. Qed.
Lemma path_P2 : 2 ^ S (S (N.to_nat W)) <= P. Proof. apply path_P. Qed.
Lemma U_le : union_steps W <= 14 * P. Proof. apply both_sides_le. Qed.
Lemma wi_argp x xs : exists a, within ((1 + 14 * P) * P) a (s_argp W x xs).
Proof.
  pose proof P_pos as PP. destruct x; cbn [s_argp].
  - exists 0. w1.
  - exists 1. eapply wi_mono; [apply wi_setNodeFromPrefix|nia|lia].
  - exists 1. eapply wi_mono; [apply wi_setNodeFromPrefix|nia|lia].
  - eexists. eapply wi_mono; [apply wi_from_range| |apply le_n]. eapply Nat.le_trans; [apply both_sides_le|].
    apply Nat.mul_le_mono; [pose proof U_le; lia|apply path_P2].
  - exists 0. destruct xs as [|[q e] [|]]; w1.
Qed.
Lemma wi_Diff' x y : exists a, within ((4 + 14 * P) * P) a (h_Difference W x y).
Proof.
  eexists. eapply wi_mono; [apply wi_difference| |apply le_n]. eapply Nat.le_trans; [apply both_sides_le|].
  apply Nat.mul_le_mono; [pose proof U_le; lia|apply le_n].
Qed.
Lemma wi_Inter' x y : exists a, within ((4 + 14 * P) * P) a (h_Intersect W x y).
Proof.
  eexists. eapply wi_mono; [apply wi_intersect| |apply le_n]. eapply Nat.le_trans; [apply both_sides_le|].
  apply Nat.mul_le_mono; [pose proof U_le; lia|apply le_n].
Qed.
Lemma wi_bind_ex {T A B} s s' (m : prog T A) (f : A -> prog T B) :
  (exists a, within s a m) -> (exists a, forall x, within s' a (f x)) -> exists a, within (s + s') a (pbind m f).
Proof. intros [a Ha] [b Hb]. exists (a + b). apply wi_pbind; auto. Qed.
(* allocation bounds that do not depend on the value bound *)
Lemma wi_Diff_u : exists a, forall x y, within ((4 + 14 * P) * P) a (h_Difference W x y).
Proof.
  eexists. intros x y. eapply wi_mono; [apply wi_difference| |apply le_n]. eapply Nat.le_trans; [apply both_sides_le|].
  apply Nat.mul_le_mono; [pose proof U_le; lia|apply le_n].
Qed.
Lemma wi_Inter_u : exists a, forall x y, within ((4 + 14 * P) * P) a (h_Intersect W x y).
Proof.
  eexists. intros x y. eapply wi_mono; [apply wi_intersect| |apply le_n]. eapply Nat.le_trans; [apply both_sides_le|].
  apply Nat.mul_le_mono; [pose proof U_le; lia|apply le_n].
Qed.
Lemma wi_Union_u : exists a, forall x y, within ((4 + 14 * P) * P) a (h_Union W x y).
Proof. eexists. intros x y. pose proof P_pos. pose proof U_le. eapply wi_mono; [apply wi_Union|nia|apply le_n]. Qed.
Lemma wi_IsEmpty_u p : within P 0 (h_IsEmpty W p).
Proof. eapply wi_mono; [apply wi_IsEmpty|pose proof (both_sides_le 1 (pathW W)); pose proof path_P; lia|lia]. Qed.
Definition s_wsteps (_ : s_wop) : nat := s_bound - 4.
Definition s_rsteps (_ : s_rop) : nat := s_bound - 4.
Definition s_bsteps (_ : s_bop) : nat := s_bound - 4.
Lemma budget : (1 + 14 * P) * P + ((4 + 14 * P) * P + ((4 + P) * P + (2 * P + P))) + 4 <= s_bound.
Proof. rewrite s_bound_eq. pose proof P_pos. nia. Qed.
Lemma s_wi_write o x vs : exists a, within (s_wsteps o) a (s_wprog W o x vs).
Proof.
  pose proof budget as B. unfold s_wsteps. destruct o as [i|i]; cbn [s_wprog].
  - destruct (wi_argp i vs) as [a1 H1]. destruct wi_Union_u as [a2 H2]. exists (a1 + a2).
    eapply wi_bind; [apply H1|lia|lia|intros q]. eapply wi_bind; [apply H2|lia|lia|intros n]. w1.
  - destruct (wi_argp i vs) as [a1 H1]. destruct wi_Diff_u as [a2 H2]. exists (a1 + a2).
    eapply wi_bind; [apply H1|lia|lia|intros q]. eapply wi_bind; [apply H2|lia|lia|intros n]. w1.
Qed.
Lemma s_wi_build b vs : exists a, within (s_bsteps b) a (s_bprog W b vs).
Proof.
  pose proof budget as B. unfold s_bsteps. destruct b as [i|i|i|i]; cbn [s_bprog].
  - destruct (wi_argp i vs) as [a1 H1]. exists a1. eapply wi_mono; [apply H1|lia|lia].
  - destruct vs as [|[p e] vs]; [exists 0; w1|]. destruct (wi_argp i vs) as [a1 H1]. destruct wi_Union_u as [a2 H2]. exists (a1 + a2).
    eapply wi_bind; [apply H1|lia|lia|intros q]. eapply wi_mono; [apply H2|lia|lia].
  - destruct vs as [|[p e] vs]; [exists 0; w1|]. destruct (wi_argp i vs) as [a1 H1]. destruct wi_Inter_u as [a2 H2]. exists (a1 + a2).
    eapply wi_bind; [apply H1|lia|lia|intros q]. eapply wi_mono; [apply H2|lia|lia].
  - destruct vs as [|[p e] vs]; [exists 0; w1|]. destruct (wi_argp i vs) as [a1 H1]. destruct wi_Diff_u as [a2 H2]. exists (a1 + a2).
    eapply wi_bind; [apply H1|lia|lia|intros q]. eapply wi_mono; [apply H2|lia|lia].
Qed.
Lemma s_wi_read r x vs : exists a, within (s_rsteps r) a (s_rprog W r x vs).
Proof.
  pose proof budget as B. pose proof P_pos as PP. unfold s_rsteps.
  assert (EM : forall p s a, P <= s -> within s a (pbind (h_IsEmpty W p) (fun b => ret (SBool b)))).
  { intros p s a Hs. eapply wi_bind; [apply wi_IsEmpty_u|lia|lia|intros; w1]. }
  assert (WK : forall {S} p (cb : prefix -> option unit -> S -> S * bool) st, within (2 * P) 0 (h_Walk W p cb st)).
  { intros S p cb st. unfold h_Walk, h_Diff. eapply wi_mono; [apply wi_diff| |lia]. apply both_sides_le. }
  destruct x as [[p e]|]; cbn [s_rprog].
  - destruct r as [| |i| |go|go|i n].
    + exists 0. eapply wi_bind; [apply wi_NumAddresses| |lia|intros; w1]. pose proof (both_sides_le 1 (pathW W)). pose proof path_P. lia.
    + exists 0. apply EM. lia.
    + destruct (wi_argp i vs) as [a1 H1]. destruct wi_Diff_u as [a2 H2]. exists (a1 + a2).
      eapply wi_bind; [apply H1|lia|lia|intros q]. eapply wi_bind; [apply H2|lia|lia|intros d]. apply EM. lia.
    + exists 0. destruct vs as [|[q e'] [|]]; try w1. eapply wi_bind; [apply wi_Equal| |lia|intros; w1].
      pose proof (both_sides_le 2 (pathW W)). pose proof path_P. lia.
    + exists 0. eapply wi_bind; [apply WK|lia|lia|intros [l b]; w1].
    + exists 0. eapply wi_bind; [apply WK|lia|lia|intros [[ranges st1] fin]]. wif; [w1|]. destruct ranges as [|a0 [|]]; try w1.
      destruct (seen go a0 st1) as [st2 g2]. wif; w1.
    + assert (X : forall q, within ((4 + P) * P) (both_sides 2 (fuelW W)) (h_findSmallestR W (fuelW W) p q n)).
      { intros q. eapply wi_mono; [apply wi_findSmallestR| |apply le_n]. eapply Nat.le_trans; [apply both_sides_le|].
        apply Nat.mul_le_mono; [|apply le_n]. pose proof (both_sides_le 1 (pathW W)). pose proof path_P. lia. }
      destruct (wi_argp i vs) as [a1 H1]. exists (a1 + both_sides 2 (fuelW W)).
      destruct i; try w1; (eapply wi_bind; [apply H1|lia|lia|intros q]; eapply wi_bind; [apply X|lia|lia|intros [res|]]; w1).
  - destruct r as [| |i| |go|go|i n]; try (exists 0; w1; fail).
    + destruct (wi_argp i vs) as [a1 H1]. exists a1.
      destruct i; try w1; (eapply wi_bind; [apply H1|lia|lia|intros q]; apply EM; lia).
    + exists 0. destruct vs as [|[q e'] [|]]; try w1. apply EM. lia.
Qed.
(* the bound for each call: it depends on the address width only *)
Definition s_steps (k : scall) : nat :=
  match k with
  | KWrite (Some _) _ _ | KRead _ _ _ | KBuild _ _ => s_bound
  | _ => 2
  end.
Lemma s_steps_le k : call_steps s_wsteps s_rsteps s_bsteps k <= s_steps k.
Proof.
  pose proof budget as B. unfold call_steps, s_steps, s_wsteps, s_rsteps, s_bsteps. destruct k as [|[c|] o a|x r a|b a|h|s]; lia.
Qed.
Notation set_exec := (set_exec W).
Notation set_step := (cstep (s_wprog W) (s_rprog W) (s_bprog W) tt s_bext s_thaw (s_call_ok W)).
Definition set_taken := taken (s_wprog W) (s_rprog W) (s_bprog W) tt s_bext s_thaw (s_call_ok W).
Definition set_alone := alone (s_wprog W) (s_rprog W) (s_bprog W) tt s_bext s_thaw (s_call_ok W).
Theorem C50_sets_bounded_all : forall rr ls st i k n, set_taken rr i ls st n -> inside st i k -> n < s_steps k.
Proof.
  intros rr ls st i k n H Hi. eapply Nat.lt_le_trans; [|apply s_steps_le]. eapply bounded_steps; eauto using s_wi_write, s_wi_read, s_wi_build.
Qed.
Theorem C50_sets_bounded : forall rr ls st i k, set_exec rr ls st -> inside st i k ->
  exists n, set_taken rr i ls st n /\ n < s_steps k.
Proof.
  intros rr ls st i k H Hi. destruct (exec_taken _ _ _ _ _ _ _ _ _ _ s_wi_write s_wi_read s_wi_build rr i ls st H) as [n Hn].
  exists n. split; [exact Hn|]. eapply C50_sets_bounded_all; eauto.
Qed.
Theorem C50_sets_never_blocked : forall ls st i k, set_exec true ls st -> inside st i k -> refers st k ->
  exists l st', set_step true st l st' /\ moves i st st'.
Proof. intros ls st i k H Hi R. eapply never_blocked; eauto using s_wi_write, s_wi_read, s_wi_build. Qed.
Theorem C50_sets_finish_alone : forall ls st i k n, set_taken true i ls st n -> inside st i k -> refers st k ->
  exists m r st', set_alone i st (repeat Tau m ++ [Ret i r]) st' /\ n + m < s_steps k.
Proof.
  intros ls st i k n H Hi R. destruct (finishes_alone _ _ _ _ _ _ _ _ _ _ s_wi_write s_wi_read s_wi_build ls st i k n H Hi R) as (m & r & st' & Al & Lt).
  exists m, r, st'. split; auto. eapply Nat.lt_le_trans; [exact Lt|apply s_steps_le].
Qed.
End Sets.
