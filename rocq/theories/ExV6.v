(* ExV6.v - concrete cases for C48: the hypotheses of its theorems are met by
   ordinary ipv6 programs, and what those programs compute. *)
From Verif Require Export PropsV6b.

Definition zT6 : N := 0.
Definition bx6 (v : N) : option N := Some v.
Definition ge6 (a b : N) : res bool := Ok (a =? b).
Definition nopeq6 {T} (_ _ : trie6 T) : bool := false.
(* 2001:db8::/32, 2001:db8:8000::/33, 2001:db8::1/128, and 2001:db8:8000::5/33,
   which has host bits *)
Definition P32 := mkPrefix6 (mkU 0x20010db800000000 0) 32.
Definition P33 := mkPrefix6 (mkU 0x20010db880000000 0) 33.
Definition P128 := mkPrefix6 (mkU 0x20010db800000000 1) 128.
Definition P33h := mkPrefix6 (mkU 0x20010db880000000 5) 33.
Definition ops6 : list (op6 N) :=
  [OpInsert6 (Some P32) 1; OpInsert6 (Some P33) 2; OpInsert6 (Some P33h) 3; OpUpdate6 (Some P33h) 4;
   OpGetOrInsert6 (Some P128) 5; OpRemove6 (Some P32); OpInsertOrUpdate6 None 6].
Lemma ops6_wf : Forall (fun o => wf6 (op_prefix6 o)) ops6.
Proof. repeat constructor; cbv; discriminate. Qed.
Lemma runs6_reach : forall os t t' outs, runs6 zT6 bx6 (Some t) os = Ok (Some t', outs) -> Forall (fun o => wf6 (op_prefix6 o)) os ->
        reachable6 zT6 bx6 ge6 t -> reachable6 zT6 bx6 ge6 t'.
Proof.
  induction os as [|o os IH]; intros t t' outs E F R; cbn [runs6] in E; [injection E as <- _; exact R|]. inversion F; subst.
      destruct (exec6 zT6 bx6 (Some t) o) as [[[t1|] r]| |] eqn:E1; cbn [bind] in E; try discriminate.
      - destruct (runs6 zT6 bx6 (Some t1) os) as [[m2 rs]| |] eqn:E2; cbn [bind] in E; try discriminate. injection E as -> _.
        apply (IH t1 t' rs E2); auto. eapply reach6_op; eauto.
      - exfalso. cbn [bind] in E. assert (K : forall os o m, runs6 zT6 bx6 (None : option (tableX6 N)) os = Ok (Some m, o) -> False).
        { clear. intros os o m H. destruct os as [|x os]; [discriminate|]. cbn [runs6] in H. destruct x; discriminate. }
        destruct (runs6 zT6 bx6 None os) as [[m2 rs]| |] eqn:E2; cbn [bind] in E; try discriminate. injection E as -> _. exact (K _ _ _ E2).
Qed.
Example C48_table_ex : exists t, runs6 zT6 bx6 (NewTable_6 ge6) ops6 =
    Ok (Some t, [OutBool true; OutBool true; OutBool false; OutBool true; OutVal 5; OutBool true; OutNone]) /\
  decides6 bx6 {| tx_trie6 := Nil6; tx_eq6 := Some (defaultComparator ge6) |} N.eqb /\
  reachable6 zT6 bx6 ge6 t /\
  stored_at6 zT6 t P33 = Some (P33h, 4) /\ Get6 zT6 t (Some P32) = (0, false) /\
  LongestMatch6 zT6 t (Some P32) = (6, true, mkPrefix6 (mkU 0 0) 0) /\
  NumEntries6 t = 3 /\
  tbl_Walk6 zT6 nopeq6 t (fun p v st => ((p, v) :: st, true)) [] = Ok ([(P33h, 4); (P128, 5); (mkPrefix6 (mkU 0 0) 0, 6)], true).
Proof.
  destruct (runs6 zT6 bx6 (NewTable_6 ge6) ops6) as [[[t|] outs]| |] eqn:E; try (exfalso; vm_compute in E; discriminate).
  exists t. assert (outs = [OutBool true; OutBool true; OutBool false; OutBool true; OutVal 5; OutBool true; OutNone]) as -> by (vm_compute in E; congruence).
  split; [reflexivity|]. split; [intros a b; reflexivity|]. split.
  - assert (R0 : reachable6 zT6 bx6 ge6 {| tx_trie6 := Nil6; tx_eq6 := Some (defaultComparator ge6) |}) by (eapply reach6_new; reflexivity).
    assert (W : Forall (fun o => wf6 (op_prefix6 o)) ops6) by apply ops6_wf. revert W R0.
    intros W R0. exact (runs6_reach ops6 _ _ _ E W R0).
  - vm_compute in E. injection E as <-. vm_compute. repeat split.
Qed.

(* sets *)
Definition R1 := mkRange6 (mkU 0 0xffffffffffffffff) (mkU 1 1).
Definition sops6 : list ((snode6 -> snode6 -> bool) * sop6) :=
  [(nopeq6, SInsert6 (Some (PrefixSet6 P32))); (nopeq6, SRemove6 (Some (AddressSet6 (mkU 0x20010db800000000 1))));
   (nopeq6, SInsert6 (Some (RangeSet6 R1)))].
Lemma R1_not_centred : ~ centred 128 (rnum R1).
Proof.
  intros (k & b & x & H1 & H2 & H3 & H4 & H5 & H6).
  assert (E1 : rfirst (rnum R1) = 2 ^ 64 - 1) by reflexivity. assert (E2 : rlast (rnum R1) = 2 ^ 64 + 1) by reflexivity.
  rewrite E1 in H5. rewrite E2 in H6.
  assert (EK : 2 ^ k = 2 * 2 ^ (k - 1)) by (rewrite <- N.pow_succ_r'; f_equal; lia).
  rewrite EK in H5, H6. set (z := 2 ^ (k - 1)) in *. clearbody z. set (u := b * z). assert (b * (2 * z) = 2 * u) by (unfold u; lia).
  assert ((b + 1) * (2 * z) = 2 * u + 2 * z) by (unfold u; lia). lia.
Qed.
Lemma nopeq6_ok : pointer_eq6 nopeq6.
Proof. discriminate. Qed.
Lemma sops6_ok : Forall (fun x => pointer_eq6 (fst x) /\ valid_arg6 (sop_arg6 (snd x)) /\ exact_arg6 (sop_arg6 (snd x))) sops6.
Proof.
  repeat constructor; try exact nopeq6_ok; try exact R1_not_centred; try (cbv; congruence); cbv; try discriminate; auto.
Qed.
Example C48_set_ex : exists s, sop_runs6 NewSet_6 sops6 = Ok (Some s) /\ set_value6 s /\
  length (stored6 s) = 98%nat /\
  set_Contains6 nopeq6 s (Some (AddressSet6 (mkU 0x20010db800000000 1))) = Ok false /\
  set_Contains6 nopeq6 s (Some (AddressSet6 (mkU 0x20010db800000000 2))) = Ok true /\
  set_Contains6 nopeq6 s (Some (RangeSet6 R1)) = Ok true /\
  set_FindAvailablePrefix6 nopeq6 s (Some (PrefixSet6 P33)) 40 = Ok (Some (mkPrefix6 (mkU 0x20010db801000000 0) 40)) /\
  set_WalkRanges6 nopeq6 s (fun r st => (r :: st, true)) [] =
    Ok ([mkRange6 (mkU 0x20010db800000000 2) (mkU 0x20010db8ffffffff 0xffffffffffffffff);
         mkRange6 (mkU 0x20010db800000000 0) (mkU 0x20010db800000000 0); R1], true).
Proof.
  destruct (C48_set_histories sops6 sops6_ok) as (s & E & SV & _). exists s. split; [exact E|]. split; [exact SV|].
  assert (E' : sop_runs6 NewSet_6 sops6 = Ok (Some s)) by exact E. vm_compute in E'.
  injection E' as <-. clear. vm_compute. repeat split.
Qed.

(* the range of the two addresses on both sides of the word boundary is one of
   those of C29: its set is the whole block ::/63 *)
Definition R2 := mkRange6 (mkU 0 0xffffffffffffffff) (mkU 1 0).
Example C48_range_ex : wfr6 R2 /\ num (rfirst6 R2) <= num (rlast6 R2) /\
  num (rfirst6 R2) = 0 * 2 ^ 65 + (2 ^ 64 - 1) /\ num (rlast6 R2) + (2 ^ 64 - 1) + 1 = (0 + 1) * 2 ^ 65 /\
  asSet6 nopeq6 (RangeSet6 R2) = Ok (setNodeFromPrefix6 (mkPrefix6 (mkU 0 0xffffffffffffffff) 63)) /\
  set_Contains6 nopeq6 (setNodeFromPrefix6 (mkPrefix6 (mkU 0 0xffffffffffffffff) 63)) (Some (AddressSet6 (mkU 0 7))) = Ok true.
Proof. vm_compute. repeat split; congruence. Qed.
Definition bld6 (outs : list (outcome N)) : bool := match outs with OutBool true :: _ => true | _ => false end.
Example C48_build_ex : reachable6 zT6 bx6 ge6 zero_table6 /\ (forall x y, exists b, ge6 x y = Ok b /\ (b = true <-> x = y)) /\
  Build6 ge6 zero_table6 (builder6 zT6 bx6 ops6 bld6) <> Ok zero_table6 /\
  Build6 ge6 zero_table6 (builder6 zT6 bx6 (OpRemove6 None :: ops6) bld6) = Ok zero_table6.
Proof.
  split; [constructor|]. split; [intros x y; exists (x =? y); split; [reflexivity|apply N.eqb_eq]|]. split; [vm_compute; discriminate|vm_compute; reflexivity].
Qed.
