(* ExSet.v - concrete cases for the theorems of PropsSet.v, and the refutations. *)
From Verif Require Export PropsSet.
From Coq Require Import Sorted.

Definition never_s : snode -> snode -> bool := fun _ _ => false.
Lemma never_s_ok : pointer_eq never_s. Proof. discriminate. Qed.
Definition ip4 (a b c d : N) : N := ((a * 256 + b) * 256 + c) * 256 + d.
Definition pfx (a b c d l : N) : prefix := mkPrefix (ip4 a b c d) l.
Definition get {A} (r : res A) (d : A) : A := match r with Ok x => x | _ => d end.

(* {10.0.0.0/24, 10.0.2.0/23} minus 10.0.0.7: seven prefixes, four of them below 10.0.0.0/29 *)
Definition S1 : snode := get (set_Union 32 never_s (setNodeFromPrefix (pfx 10 0 0 0 24)) (Some (PrefixSet (pfx 10 0 2 0 23)))) Nil.
Definition S2 : snode := get (set_Difference 32 never_s S1 (Some (AddressSet (ip4 10 0 0 7)))) Nil.

Lemma W32 : ip_width 32. Proof. left; reflexivity. Qed.
Lemma W128 : ip_width 128. Proof. right; reflexivity. Qed.
Ltac wfp := split; reflexivity || (cbn; discriminate).
Lemma S0_value : set_value 32 (setNodeFromPrefix (pfx 10 0 0 0 24)).
Proof. apply (sv_arg 32 never_s (Some (PrefixSet (pfx 10 0 0 0 24)))); [apply never_s_ok|constructor; wfp|reflexivity]. Qed.
Lemma S1_value : set_value 32 S1.
Proof.
  apply (sv_union 32 never_s (setNodeFromPrefix (pfx 10 0 0 0 24)) (Some (PrefixSet (pfx 10 0 2 0 23)))); [apply never_s_ok|apply S0_value|constructor; wfp|].
  vm_compute. reflexivity.
Qed.
Lemma S2_value : set_value 32 S2.
Proof.
  apply (sv_diff 32 never_s S1 (Some (AddressSet (ip4 10 0 0 7)))); [apply never_s_ok|apply S1_value|constructor; reflexivity|].
  vm_compute. reflexivity.
Qed.

(* hypotheses of the theorems met by a non-trivial case, with the expected results *)
Example S2_stored : stored S2 =
  [pfx 10 0 0 0 30; pfx 10 0 0 4 31; pfx 10 0 0 6 32; pfx 10 0 0 8 29; pfx 10 0 0 16 28; pfx 10 0 0 32 27; pfx 10 0 0 64 26; pfx 10 0 0 128 25; pfx 10 0 2 0 23].
Proof. vm_compute. reflexivity. Qed.
Example S2_count : set_NumAddresses 32 S2 = 767 /\ set_IsEmpty 32 S2 = false.
Proof. vm_compute. auto. Qed.
Example S2_contains : set_Contains 32 never_s S2 (Some (PrefixSet (pfx 10 0 0 64 27))) = Ok true /\
  set_Contains 32 never_s S2 (Some (PrefixSet (pfx 10 0 0 0 24))) = Ok false.
Proof. vm_compute. auto. Qed.
Example S2_ranges : set_WalkRanges 32 never_s S2 (fun r l => (l ++ [r], true)) [] =
  Ok ([mkRange (ip4 10 0 0 0) (ip4 10 0 0 6); mkRange (ip4 10 0 0 8) (ip4 10 0 0 255); mkRange (ip4 10 0 2 0) (ip4 10 0 3 255)], true).
Proof. vm_compute. reflexivity. Qed.
Example S2_numprefixes : set_NumPrefixes 32 never_s S2 31 = Ok (383, false).
Proof. vm_compute. reflexivity. Qed.
(* the tightest block that can hold a /30 outside 10.0.0.0/30 is 10.0.0.8/29 *)
Example S2_find : set_FindAvailablePrefix 32 never_s S2 (Some (PrefixSet (pfx 10 0 0 0 30))) 30 = Ok (Some (pfx 10 0 0 8 30)) /\
  set_FindAvailablePrefix 32 never_s S2 (Some (PrefixSet (pfx 10 0 0 0 30))) 22 = Ok None.
Proof. vm_compute. auto. Qed.
Example S2_not_last : ~ mem 32 S2 (2 ^ 32 - 1).
Proof.
  destruct (C28_contains_address 32 W32 never_s S2 (2 ^ 32 - 1) never_s_ok S2_value ltac:(reflexivity)) as (b & E & B).
  assert (E' : set_Contains 32 never_s S2 (Some (AddressSet (2 ^ 32 - 1))) = Ok false) by (vm_compute; reflexivity).
  rewrite E in E'. injection E' as ->. intros M. apply B in M. discriminate.
Qed.
Example S2_walk : set_WalkAddresses 32 never_s 8 (setNodeFromPrefix (pfx 10 0 0 4 30)) (fun a l => (l ++ [a], true)) [] =
  Ok ([ip4 10 0 0 4; ip4 10 0 0 5; ip4 10 0 0 6; ip4 10 0 0 7], true).
Proof. vm_compute. reflexivity. Qed.
Example S2_canonical : Forall (canonical 32) (stored S2).
Proof. rewrite S2_stored. repeat constructor. Qed.
Example C24_ex : Forall (fun x : (snode -> snode -> bool) * sop => pointer_eq (fst x) /\ valid_arg 32 (sop_arg (snd x)) /\ exact_arg 32 (sop_arg (snd x)))
    [(never_s, SInsert (Some (PrefixSet (pfx 10 0 0 0 24)))); (never_s, SInsert (Some (PrefixSet (pfx 10 0 2 0 23)))); (never_s, SRemove (Some (AddressSet (ip4 10 0 0 7))))] /\
  sop_runs 32 NewSet_ [(never_s, SInsert (Some (PrefixSet (pfx 10 0 0 0 24)))); (never_s, SInsert (Some (PrefixSet (pfx 10 0 2 0 23)))); (never_s, SRemove (Some (AddressSet (ip4 10 0 0 7))))] = Ok (Some S2).
Proof.
  split; [|vm_compute; reflexivity].
  repeat (constructor; [split; [apply never_s_ok|split; [constructor; (wfp || reflexivity)|exact I]]|]). constructor.
Qed.
(* a range that is not centred, into three prefixes *)
Example range_ex : wf_range 32 (mkRange 1 5) /\ ~ centred 32 (mkRange 1 5) /\
  exists t, asSet 32 never_s (RangeSet (mkRange 1 5)) = Ok t /\ stored t = [mkPrefix 1 32; mkPrefix 2 31; mkPrefix 4 31].
Proof.
  split; [split; [discriminate|reflexivity]|]. split.
  - intros (k & b & x & X0 & X1 & K0 & K1 & A & B). cbn [rfirst rlast] in A, B.
    assert (E : 2 ^ k = 2 * 2 ^ (k - 1)) by (rewrite <- N.pow_succ_r'; f_equal; lia).
    assert (b = 0) by nia. subst b. lia.
  - eexists. split; vm_compute; reflexivity.
Qed.
(* its counts: three /31 or /32 aligned blocks hold two whole /31s and five addresses *)
Example range_count_ex :
  range_NumPrefixes 32 never_s (mkRange 1 5) 31 = Ok (2, false) /\ range_NumAddresses 32 never_s (mkRange 1 5) = Ok 5 /\
  prefix_num_prefixes4 32 (mkPrefix (2 ^ 31) 8) 10 = (4, false) /\ prefix_NumAddresses 32 (mkPrefix (2 ^ 31) 8) = 2 ^ 24 /\
  prefix_num_prefixes6 128 (mkPrefix (2 ^ 125) 60) 64 = (16, false) /\ prefix_num_prefixes6 128 (mkPrefix (2 ^ 125) 60) 124 = (0, true).
Proof. vm_compute. repeat split. Qed.
(* an IPv6 set *)
Example v6_ex : set_value 128 (setNodeFromPrefix (mkPrefix (2 ^ 125) 60)) /\
  set_NumPrefixes 128 never_s (setNodeFromPrefix (mkPrefix (2 ^ 125) 60)) 64 = Ok (16, false) /\
  set_NumPrefixes 128 never_s (setNodeFromPrefix (mkPrefix (2 ^ 125) 60)) 124 = Ok (0, true).
Proof.
  split; [|vm_compute; auto]. apply (sv_arg 128 never_s (Some (PrefixSet (mkPrefix (2 ^ 125) 60)))); [apply never_s_ok|constructor; wfp|reflexivity].
Qed.

(* ---- refutations ---- *)

Definition A1 : snode := setNodeFromPrefix (pfx 10 0 0 1 24).
Lemma A1_value : set_value 32 A1.
Proof. apply (sv_arg 32 never_s (Some (PrefixSet (pfx 10 0 0 1 24)))); [apply never_s_ok|constructor; wfp|reflexivity]. Qed.
(* C25: 10.0.0.1/24 and 10.0.0.0/24 have the same addresses but are not Equal *)
Theorem C25_refuted : exists s t, set_value 32 s /\ set_value 32 t /\
  (forall a, mem 32 s a <-> mem 32 t a) /\ set_Equal never_s s t = Ok false.
Proof.
  exists A1, (setNodeFromPrefix (pfx 10 0 0 0 24)). split; [apply A1_value|]. split; [apply S0_value|]. split; [|vm_compute; reflexivity].
  intros a. assert (HW : 0 < 32 /\ 32 < 2 ^ 15) by (split; reflexivity). unfold A1. rewrite !mem_leaf by (auto; wfp). reflexivity.
Qed.

(* C29: the range 0.0.0.1-0.0.0.2 becomes 0.0.0.1/30; then Range.Contains and
   Range.NumAddresses are wrong too *)
Theorem C29_refuted : let r := mkRange 1 2 in wf_range 32 r /\
  (exists t, asSet 32 never_s (RangeSet r) = Ok t /\ mem 32 t 0 /\ ~ in_range r 0) /\
  range_Contains 32 never_s r (Some (AddressSet 3)) = Ok true /\
  range_NumAddresses 32 never_s r = Ok 4.
Proof.
  cbv zeta. split; [split; [discriminate|reflexivity]|]. split; [|vm_compute; auto].
  eexists. split; [reflexivity|]. split; [|unfold in_range; cbn; lia].
  split; [reflexivity|]. eexists. split; [left; reflexivity|]. reflexivity.
Qed.

(* C31: walking {255.255.255.255} with a callback that stops after two addresses
   visits 0.0.0.0, which is not in the set; one that does not stop never returns *)
Definition TopSet : snode := setNodeFromPrefix (mkPrefix (2 ^ 32 - 1) 32).
Lemma TopSet_value : set_value 32 TopSet.
Proof. apply (sv_arg 32 never_s (Some (AddressSet (2 ^ 32 - 1)))); [apply never_s_ok|constructor; reflexivity|reflexivity]. Qed.
Lemma TopSet_mem : forall a, mem 32 TopSet a <-> a = 2 ^ 32 - 1.
Proof.
  intros a. assert (HW : 0 < 32 /\ 32 < 2 ^ 15) by (split; reflexivity). unfold TopSet. rewrite mem_leaf by (auto; wfp).
  apply (in_addr_prefix 32 HW (2 ^ 32 - 1) a). reflexivity.
Qed.
Theorem C31_refuted :
  walk_runs_forever never_s TopSet (fun a (n : N) => (n + 1, true)) 0 /\
  walk_returns never_s TopSet (fun a l => (l ++ [a], N.of_nat (length l) <? 1)) [] ([2 ^ 32 - 1; 0], false) /\
  ~ mem 32 TopSet 0.
Proof.
  assert (M : mem 32 TopSet (2 ^ 32 - 1)) by (apply TopSet_mem; reflexivity).
  destruct (C31_wraps_around never_s TopSet never_s_ok TopSet_value M) as (l & SS & IN & H).
  assert (l = [2 ^ 32 - 1]) as ->.
  { destruct l as [|x l]; [exfalso; apply IN in M; contradiction|].
    assert (E : forall y, In y (x :: l) -> y = 2 ^ 32 - 1) by (intros y I; apply TopSet_mem, IN; exact I).
    destruct l as [|y l]; [f_equal; apply E; left; auto|]. exfalso. inversion SS as [|? ? _ F]; subst. rewrite Forall_forall in F.
    specialize (F y (or_introl eq_refl)). rewrite (E x), (E y) in F by (cbn; auto). lia. }
  split; [|split].
  - destruct (H N (fun a (n : N) => (n + 1, true)) 0) as [_ X]. apply X. intros n. cbv zeta.
    generalize ([2 ^ 32 - 1] ++ map (fun i => N.of_nat i mod 2 ^ 32) (seq 0 n)). intros L. generalize 0.
    induction L as [|a L IH]; intros z; [reflexivity|]. apply IH.
  - destruct (H (list N) (fun a l => (l ++ [a], N.of_nat (length l) <? 1)) []) as [X _]. apply (X 1%nat). vm_compute. reflexivity.
  - rewrite TopSet_mem. discriminate.
Qed.

(* C32: for IPv4 a length beyond 32 gives 0 and no error *)
Theorem C32_refuted : exists s, set_value 32 s /\ set_NumPrefixes 32 never_s s 33 = Ok (0, false).
Proof. exists S2. split; [apply S2_value|vm_compute; reflexivity]. Qed.

(* C33: a length beyond the address size gives an invalid prefix, not an error *)
Theorem C33_refuted : exists s q, set_value 32 s /\
  set_FindAvailablePrefix 32 never_s s (Some (TheSet Nil)) 33 = Ok (Some q) /\ ~ wf_prefix 32 q.
Proof. exists S2, (pfx 10 0 0 6 33). split; [apply S2_value|]. split; [vm_compute; reflexivity|]. intros [_ H]. cbn in H. lia. Qed.
