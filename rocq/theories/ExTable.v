(* ExTable.v - concrete IPv4 tables: counterexamples to the properties that the
   code does not have (theorems *_refuted), and witnesses that the hypotheses of
   the table theorems are met by non-trivial tables. *)
From Verif Require Export PropsAgg PropsAgg2 PropsDiff.
From Coq Require Import Sorted.

Definition ip4 (a b c d : N) : N := ((a * 256 + b) * 256 + c) * 256 + d.
Definition pf (a b c d len : N) : prefix := mkPrefix (ip4 a b c d) len.

(* tables of numbers, compared with == *)
Definition boxN : N -> option N := Some.
Definition goeqN (a b : N) : res bool := Ok (a =? b).
Definition never (_ _ : trie N) : bool := false.

(* structural equality: the other extreme of the sound pointer comparisons *)
Definition data_eqb (a b : option N) : bool :=
  match a, b with None, None => true | Some x, Some y => x =? y | _, _ => false end.
Fixpoint trie_eqb (a b : trie N) : bool :=
  match a, b with
  | Nil, Nil => true
  | Node p d s h c l r, Node p' d' s' h' c' l' r' =>
    prefix_eqb p p' && data_eqb d d' && (s =? s') && (h =? h') && Bool.eqb c c' && trie_eqb l l' && trie_eqb r r'
  | _, _ => false
  end.
Lemma trie_eqb_sound a : forall b, trie_eqb a b = true -> a = b.
Proof.
  induction a as [|p d s h c l IHl r IHr]; intros [|p' d' s' h' c' l' r']; cbn; try discriminate; auto.
  rewrite !andb_true_iff. unfold prefix_eqb. rewrite andb_true_iff, !N.eqb_eq, Bool.eqb_true_iff.
  intros [[[[[[[E1 E2] E3] E4] E5] E6] E7] E8]. subst.
  apply IHl in E7. apply IHr in E8. subst. destruct p, p'; cbn in *; subst.
  destruct d, d'; cbn in E3; try discriminate; try apply N.eqb_eq in E3; subst; auto.
Qed.
Lemma never_sound a b : never a b = true -> a = b.
Proof. discriminate. Qed.

(* build a table by InsertOrUpdate *)
Definition fresh : tableX N := {| tx_trie := Nil; tx_eq := Some (defaultComparator goeqN) |}.
Definition ops_of (l : list (prefix * N)) : list (op N) := map (fun '(p, v) => OpInsertOrUpdate (Some p) v) l.
Definition build (l : list (prefix * N)) : tableX N :=
  match runs 32 0 boxN (Some fresh) (ops_of l) with Ok (Some t, _) => t | _ => fresh end.

Notation reachN := (reachable 32 0 boxN goeqN).
Lemma runs_reach os : forall (t t' : tableX N) outs, reachN t -> Forall (fun o => wf_prefix 32 (op_prefix o)) os ->
  runs 32 0 boxN (Some t) os = Ok (Some t', outs) -> reachN t'.
Proof.
  induction os as [|o os IH]; intros t t' outs Ht Hos E.
  - cbn in E. injection E as <- <-. auto.
  - inversion Hos as [|? ? Ho Hos']; subst. cbn [runs] in E.
    destruct (exec 32 0 boxN (Some t) o) as [[m1 x]| |] eqn:X; cbn [bind] in E; try discriminate.
    destruct (exec_some _ _ _ _ _ _ _ X) as (t1 & -> & _).
    destruct (runs 32 0 boxN (Some t1) os) as [[m2 xs]| |] eqn:Y; cbn [bind] in E; try discriminate.
    injection E as -> <-. eapply IH; [|eauto|eauto]. eapply reach_op; eauto.
Qed.
Definition wfb (p : prefix) : bool := (paddr p <? 2 ^ 32) && (plen p <=? 32).
Lemma wfb_ok p : wfb p = true -> wf_prefix 32 p.
Proof. unfold wfb, wf_prefix. rewrite andb_true_iff, N.ltb_lt, N.leb_le. auto. Qed.
Lemma build_reach l : forallb (fun e => wfb (fst e)) l = true -> reachN (build l).
Proof.
  intros H. unfold build. destruct (runs 32 0 boxN (Some fresh) (ops_of l)) as [[[t|] outs]| |] eqn:E;
    try (apply reach_new; reflexivity).
  eapply runs_reach; [|  |exact E]; [apply reach_new; reflexivity|].
  apply Forall_forall. intros o Ho. unfold ops_of in Ho. apply in_map_iff in Ho.
  destruct Ho as ([p v] & <- & Hi). cbn. apply wfb_ok. rewrite forallb_forall in H. apply (H _ Hi).
Qed.
Lemma fresh_decides : decides boxN fresh N.eqb.
Proof. intros a b. reflexivity. Qed.
Lemma build_decides l : decides boxN (build l) N.eqb.
Proof.
  unfold build. destruct (runs 32 0 boxN (Some fresh) (ops_of l)) as [[[t|] outs]| |] eqn:E; try apply fresh_decides.
  assert (X : forall os (t t' : tableX N) outs, runs 32 0 boxN (Some t) os = Ok (Some t', outs) -> tx_eq t' = tx_eq t).
  { clear. induction os as [|o os IH]; intros t t' outs E; cbn [runs] in E.
    - injection E as <- <-. auto.
    - destruct (exec 32 0 boxN (Some t) o) as [[m1 x]| |] eqn:X; cbn [bind] in E; try discriminate.
      pose proof (exec_some _ _ _ _ _ _ _ X) as Y.
      destruct Y as (t1 & -> & E1).
      destruct (runs 32 0 boxN (Some t1) os) as [[m2 xs]| |] eqn:Y; cbn [bind] in E; try discriminate.
      injection E as -> <-. rewrite <- E1. eauto. }
  intros a b. rewrite (X _ _ _ _ E). reflexivity.
Qed.
Lemma goeqN_equivalence : equivalence N.eqb.
Proof.
  split; [apply N.eqb_refl|]. split; intros *; rewrite !N.eqb_eq; congruence.
Qed.
Definition the (r : res (tableX N)) : tableX N := match r with Ok x => x | _ => fresh end.
Lemma ip32 : ip_width 32. Proof. left. reflexivity. Qed.
Lemma boxN_ok v : unbox 0 (boxN v) = v. Proof. reflexivity. Qed.

(* ---- witnesses ---- *)
Definition T1 : tableX N := build
  [(pf 10 0 0 0 8, 1); (pf 10 1 0 0 16, 2); (pf 10 1 2 77 24, 3); (pf 192 168 0 0 16, 4); (pf 0 0 0 0 0, 9)].
Example T1_reachable : reachN T1. Proof. apply build_reach. vm_compute. reflexivity. Qed.
Example T1_decides : decides boxN T1 N.eqb. Proof. apply build_decides. Qed.
Example T1_lookups :
  LongestMatch 32 0 T1 (Some (pf 10 1 2 3 32)) = (3, true, pf 10 1 2 77 24) /\
  LongestMatch 32 0 T1 (Some (pf 10 1 0 0 15)) = (1, true, pf 10 0 0 0 8) /\
  LongestMatch 32 0 T1 (Some (pf 11 0 0 0 32)) = (9, true, pf 0 0 0 0 0) /\
  NumEntries T1 = 5.
Proof. repeat split; vm_compute; reflexivity. Qed.
(* a history mixing all the calls *)
Example C08_history_ex :
  exists outs t, runs 32 0 boxN (Some fresh)
    [OpInsert (Some (pf 10 0 0 0 8)) 1; OpInsert (Some (pf 10 9 9 9 8)) 2; OpUpdate (Some (pf 10 1 1 1 8)) 5;
     OpGetOrInsert None 7; OpRemove (Some (pf 10 0 0 0 8)); OpUpdate (Some (pf 10 0 0 0 8)) 3]
    = Ok (Some t, outs) /\
    outs = [OutBool true; OutBool false; OutBool true; OutVal 7; OutBool true; OutBool false].
Proof.
  match goal with |- exists outs t, ?r = _ /\ _ =>
    exists (match r with Ok (_, o) => o | _ => [] end), (match r with Ok (Some x, _) => x | _ => fresh end) end.
  split; vm_compute; reflexivity.
Qed.

(* ---- C09: Remove of a prefix that is not an entry returns true ---- *)
Definition T2 : tableX N := build [(pf 10 0 0 0 25, 1); (pf 10 0 0 128 25, 2)].
Theorem C09_refuted :
  exists (t : tableX N) (p : prefix), reachN t /\ wf_prefix 32 p /\
    snd (Get 32 0 t (Some p)) = false /\
    exists t', tbl_Remove 32 (Some t) (Some p) = Ok (Some t', true).
Proof.
  exists T2, (pf 10 0 0 0 24). split; [apply build_reach; vm_compute; reflexivity|].
  split; [apply wfb_ok; vm_compute; reflexivity|]. split; [vm_compute; reflexivity|].
  exists (match tbl_Remove 32 (Some T2) (Some (pf 10 0 0 0 24)) with Ok (Some x, _) => x | _ => fresh end).
  vm_compute. reflexivity.
Qed.

(* ---- C14: Diff is not in lexicographic order ---- *)
Definition T3 : tableX N := build [(pf 10 0 0 0 32, 1)].
Definition T4 : tableX N := build [(pf 11 0 0 0 8, 1)].
Theorem C14_refuted :
  exists (l r : tableX N), reachN l /\ reachN r /\
    forall peq, peq = never \/ peq = trie_eqb ->
    exists x y, diff_log 32 0 peq l r = Ok [x; y] /\ lex_lt 32 (rprefix y) (rprefix x).
Proof.
  exists T3, T4. split; [apply build_reach; vm_compute; reflexivity|]. split; [apply build_reach; vm_compute; reflexivity|].
  intros peq Hp. exists (RAdded (pf 11 0 0 0 8) 1), (RRemoved (pf 10 0 0 0 32) 1).
  split; [|left; vm_compute; reflexivity].
  destruct Hp; subst peq; vm_compute; reflexivity.
Qed.

(* the exact order theorem applies to it: the two prefixes are a swapped pair *)
Example C14_swapped : swapped 32 (stored_in 32 0 T3) (stored_in 32 0 T4) (pf 10 0 0 0 32) (pf 11 0 0 0 8).
Proof.
  pose proof (build_reach [(pf 10 0 0 0 32, 1)] ltac:(vm_compute; reflexivity)) as R3.
  pose proof (build_reach [(pf 11 0 0 0 8, 1)] ltac:(vm_compute; reflexivity)) as R4.
  destruct (C14_diff_order_exact_partial 32 (or_introl eq_refl) 0 boxN (fun _ => eq_refl) goeqN never T3 T4 N.eqb
              never_sound R3 R4 (build_decides _)) as (R & E & S).
  assert (diff_log 32 0 never T3 T4 = Ok [RAdded (pf 11 0 0 0 8) 1; RRemoved (pf 10 0 0 0 32) 1]) as E'
    by (vm_compute; reflexivity).
  rewrite E' in E. injection E as <-. apply StronglySorted_inv in S. destruct S as [_ F].
  inversion F as [|? ? H _]; subst. cbn [diff_before] in H. destruct H as [[H _]|[_ H]]; [|exact H].
  exfalso. destruct H as [H|[H _]]; vm_compute in H; discriminate.
Qed.

(* ---- C16: aggregation can change a longest match ---- *)
Definition T5 : tableX N := build [(pf 10 0 0 0 25, 1); (pf 10 0 0 0 26, 2); (pf 10 0 0 128 25, 1)].
Theorem C16_refuted :
  exists (t : tableX N) (a : N), reachN t /\ a < 2 ^ 32 /\
    forall peq, peq = never \/ peq = trie_eqb ->
    exists t', tbl_Aggregate peq t = Ok t' /\ value_at 32 0 t a = Some 2 /\ value_at 32 0 t' a = Some 1.
Proof.
  exists T5, (ip4 10 0 0 5). split; [apply build_reach; vm_compute; reflexivity|]. split; [vm_compute; reflexivity|].
  intros peq Hp. exists (the (tbl_Aggregate peq T5)). destruct Hp; subst peq; repeat split; vm_compute; reflexivity.
Qed.
(* the exact theorem applies to tables with nested and with mergeable entries *)
Definition T6 : tableX N := build
  [(pf 10 0 0 0 25, 1); (pf 10 0 0 128 25, 1); (pf 10 1 0 0 16, 2); (pf 10 1 1 0 24, 3); (pf 10 2 0 0 16, 3)].
Example T6_aggregates : exists t', tbl_Aggregate never T6 = Ok t' /\ NumEntries T6 = 5 /\ NumEntries t' = 4 /\
  Get 32 0 t' (Some (pf 10 0 0 0 24)) = (1, true) /\ Get 32 0 t' (Some (pf 10 1 1 0 24)) = (3, true).
Proof. exists (the (tbl_Aggregate never T6)). repeat split; vm_compute; reflexivity. Qed.

(* entries of a concrete table, up to host bits *)
Lemma Get_entries (t : tableX N) p v : reachN t -> wf_prefix 32 p -> Get 32 0 t (Some p) = (v, true) ->
  exists e, In e (entries (tx_trie t)) /\ pkey 32 (fst e) = pkey 32 p /\ unbox 0 (snd e) = v.
Proof.
  intros Ht Hp G. pose proof (rwf 32 ip32 0 boxN goeqN _ Ht) as Hw.
  rewrite (Get_fk 32 (ip_HW _ ip32)) in G by auto.
  destruct (fk 32 (key 32 p) (tx_trie t)) as [[ep ed]|] eqn:E; [|discriminate]. injection G as <-. set (e := (ep, ed)) in *.
  apply (fk_In 32) in E. destruct E as [Hi Hk]. exists e. split; auto. split; auto.
  apply (key_eq_iff 32); auto. eapply ewf; eauto.
Qed.
(* T6 meets the hypothesis of C16_aggregate_exact_partial although it has nested
   entries of different values: 10.1.1.0/24 inside 10.1.0.0/16 *)
Example T6_exact : mergeable_only_if_uniform 32 0 T6 N.eqb.
Proof.
  intros m c p v q w Hm Lm Hp Hq Hk Gp Gq Hc Hv.
  assert (R : reachN T6) by (apply build_reach; vm_compute; reflexivity).
  destruct (Get_entries _ _ _ R Hp Gp) as (e & Ie & Ke & Ve).
  destruct (Get_entries _ _ _ R Hq Gq) as (f & If & Kf & Vf).
  assert (EE : entries (tx_trie T6) =
    [(pf 10 0 0 0 25, Some 1); (pf 10 0 0 128 25, Some 1); (pf 10 1 0 0 16, Some 2); (pf 10 1 1 0 24, Some 3); (pf 10 2 0 0 16, Some 3)])
    by (vm_compute; reflexivity).
  rewrite EE in Ie, If.
  (* containment only depends on the keys *)
  assert (Wef : wf_prefix 32 (fst e) /\ wf_prefix 32 (fst f)).
  { split; eapply ewf; try (rewrite EE; eassumption); eapply (rwf 32 ip32 0 boxN goeqN); eauto. }
  destruct Wef as [We Wf].
  assert (Hc' : covers 32 (fst e) (fst f)).
  { apply (covers_pre 32); auto. apply (covers_pre 32) in Hc; auto.
    apply (key_eq_iff 32) in Ke; auto. apply (key_eq_iff 32) in Kf; auto. rewrite Ke, Kf. exact Hc. }
  assert (D : e = (pf 10 1 0 0 16, Some 2) /\ f = (pf 10 1 1 0 24, Some 3)).
  { destruct Hc' as [Hl Hin]. unfold in_prefix in Hin.
    repeat (destruct Ie as [Ie|Ie]; [|]); try contradiction; subst e;
    repeat (destruct If as [If|If]; [|]); try contradiction; subst f;
    cbn [fst snd unbox] in *; subst v w; try discriminate Hv; try (exfalso; vm_compute in Hin; discriminate Hin);
    try (exfalso; vm_compute in Hl; apply Hl; reflexivity); auto. }
  destruct D; subst e f. cbn [fst snd unbox] in *. subst v w.
  (* the parent is 10.0.0.0/15 and the other half is 10.0.0.0/16 *)
  rewrite Hk in Ke. unfold pkey, half in Ke. cbn [plen] in Ke. injection Ke as Kn Kl.
  unfold net in Kn. cbn [paddr plen] in Kn. assert (E15 : plen m = 15) by lia. 
  rewrite E15 in *. change (32 - (15 + 1)) with 16 in Kn. change (32 - 15 - 1) with 16 in Kn.
  change (2 ^ 16) with 65536 in Kn. change (paddr (pf 10 1 0 0 16) / 2 ^ (32 - plen (pf 10 1 0 0 16)) * 2 ^ (32 - plen (pf 10 1 0 0 16))) with 167837696 in Kn.
  change (2 ^ (32 - 15)) with 131072 in Kn.
  assert (X : c = true /\ paddr m / 131072 = 1280).
  { destruct c; [split; auto|exfalso]; revert Kn; generalize (paddr m / 131072); intros z Kn.
    - replace (z * 131072 + 65536) with ((2 * z + 1) * 65536) in Kn by lia. rewrite N.div_mul in Kn by discriminate. lia.
    - replace (z * 131072 + 0) with ((2 * z) * 65536) in Kn by lia. rewrite N.div_mul in Kn by discriminate. lia. }
  destruct X as [-> Xm]. exists (ip4 10 0 5 0). split; [reflexivity|].
  assert (Eh : pkey 32 (half 32 false m) = (ip4 10 0 0 0, 16)).
  { unfold pkey, half, net. cbn [paddr plen]. rewrite E15. change (2 ^ (32 - 15)) with 131072. rewrite Xm. vm_compute. reflexivity. }
  assert (Nh : paddr (half 32 false m) = ip4 10 0 0 0 /\ plen (half 32 false m) = 16).
  { unfold half, net. cbn [paddr plen]. rewrite E15. change (2 ^ (32 - 15)) with 131072. rewrite Xm. split; vm_compute; reflexivity. }
  cbn [negb]. split.
  - unfold in_prefix. destruct Nh as [-> ->]. vm_compute. reflexivity.
  - clear Ie Kn If. intros q' w' Hq' Gq' Hcov Hin. exfalso.
    destruct (Get_entries _ _ _ R Hq' Gq') as (e & Ie & Ke & Ve). rewrite EE in Ie.
    assert (We' : wf_prefix 32 (fst e)) by (eapply ewf; [eapply (rwf 32 ip32 0 boxN goeqN); eauto|rewrite EE; auto]).
    apply (key_eq_iff 32) in Ke; auto. apply in_prefix_pre in Hin; [|auto|reflexivity].
    rewrite <- Ke in Hin. apply in_prefix_pre in Hin; [|auto|reflexivity]. unfold in_prefix in Hin.
    repeat (destruct Ie as [Ie|Ie]; [subst e; vm_compute in Hin; discriminate Hin|]). contradiction.
Qed.
(* an unnested table whose entries merge *)
Definition T6b : tableX N := build [(pf 10 0 0 0 25, 1); (pf 10 0 0 128 25, 1); (pf 10 1 0 0 16, 2)].

(* ---- C17: the result is neither minimal nor stable ---- *)
Definition T7 : tableX N := build [(pf 10 0 0 0 26, 1); (pf 10 0 0 64 26, 2); (pf 10 0 0 128 26, 1); (pf 10 0 0 192 26, 1)].
Definition T7min : tableX N := build [(pf 10 0 0 0 24, 1); (pf 10 0 0 64 26, 2)].
Definition T8 : tableX N := build [(pf 10 0 0 0 24, 1); (pf 10 0 0 0 25, 2); (pf 10 0 0 0 26, 1); (pf 10 0 0 64 26, 1)].

(* for concrete tables: the value at an address, by comparing the address with
   each entry *)
Definition inb (p : prefix) (a : N) : bool := a / 2 ^ (32 - plen p) =? paddr p / 2 ^ (32 - plen p).
Fixpoint lookup (L : list (prefix * option N)) (a : N) : option N :=
  match L with
  | [] => None
  | (p, d) :: L' => match lookup L' a with
                    | Some x => Some x
                    | None => if inb p a then Some (unbox 0 d) else None
                    end
  end.
Lemma lookup_ok (t : tableX N) a : reachN t -> a < 2 ^ 32 -> value_at 32 0 t a = lookup (entries (tx_trie t)) a.
Proof.
  intros Ht Ha. pose proof (rwf 32 ip32 0 boxN goeqN _ Ht) as Hw.
  rewrite (value_lastm 32 ip32 0 boxN boxN_ok goeqN) by auto.
  assert (F : Forall (fun e => wf_prefix 32 (fst e)) (entries (tx_trie t))).
  { apply Forall_forall. intros e He. eapply ewf; eauto. }
  induction F as [|[p d] L Hp F IH]; cbn [lastm lookup option_map]; [reflexivity|].
  rewrite <- IH. destruct (lastm 32 L (full 32 a)); cbn [option_map]; [reflexivity|].
  unfold ekey. cbn [fst] in *.
  replace (preb (key 32 p) (full 32 a)) with (inb p a); [destruct (inb p a); reflexivity|].
  apply Bool.eq_iff_eq_true. rewrite preb_spec, <- in_prefix_pre by auto. unfold inb, in_prefix. apply N.eqb_eq.
Qed.
Theorem C17_minimal_refuted :
  exists (t m : tableX N), reachN t /\ reachN m /\
    (forall a, a < 2 ^ 32 -> value_at 32 0 m a = value_at 32 0 t a) /\
    forall peq, peq = never \/ peq = trie_eqb ->
    exists t', tbl_Aggregate peq t = Ok t' /\ NumEntries m < NumEntries t'.
Proof.
  exists T7, T7min. split; [apply build_reach; vm_compute; reflexivity|]. split; [apply build_reach; vm_compute; reflexivity|].
  split.
  - intros a Ha. rewrite !lookup_ok by (auto; apply build_reach; vm_compute; reflexivity).
    replace (entries (tx_trie T7)) with [(pf 10 0 0 0 26, Some 1); (pf 10 0 0 64 26, Some 2); (pf 10 0 0 128 26, Some 1); (pf 10 0 0 192 26, Some 1)]
      by (vm_compute; reflexivity).
    replace (entries (tx_trie T7min)) with [(pf 10 0 0 0 24, Some 1); (pf 10 0 0 64 26, Some 2)] by (vm_compute; reflexivity).
    cbn [lookup unbox]. unfold inb. cbn [pf plen paddr].
    change (32 - 26) with 6. change (32 - 24) with 8. change (2 ^ 6) with 64. change (2 ^ 8) with 256.
    change (ip4 10 0 0 0 / 64) with 2621440. change (ip4 10 0 0 64 / 64) with 2621441.
    change (ip4 10 0 0 128 / 64) with 2621442. change (ip4 10 0 0 192 / 64) with 2621443.
    change (ip4 10 0 0 0 / 256) with 655360.
    assert (E : a / 256 = a / 64 / 4) by (rewrite N.div_div by discriminate; reflexivity).
    rewrite E. set (x := a / 64).
    destruct (N.eqb_spec x 2621440), (N.eqb_spec x 2621441), (N.eqb_spec x 2621442), (N.eqb_spec x 2621443);
      subst; try reflexivity; try congruence.
    all: try (rewrite e; reflexivity). all: try (rewrite e0; reflexivity).
    replace (x / 4 =? 655360) with false; [reflexivity|]. symmetry. apply N.eqb_neq. intros X.
    pose proof (N.div_mod x 4 ltac:(discriminate)) as D. pose proof (N.mod_lt x 4 ltac:(discriminate)). lia.
  - intros peq Hp. exists (the (tbl_Aggregate peq T7)). destruct Hp; subst peq; split; vm_compute; reflexivity.
Qed.
(* aggregating twice (through the mutable copy, which restores a comparator)
   gives a smaller table than aggregating once *)
Theorem C17_idempotent_refuted :
  exists (t : tableX N), reachN t /\
    forall peq, peq = never \/ peq = trie_eqb ->
    exists t' m t'', tbl_Aggregate peq t = Ok t' /\ Table_ goeqN t' = Some m /\ tbl_Aggregate peq m = Ok t'' /\
      NumEntries t'' < NumEntries t'.
Proof.
  exists T8. split; [apply build_reach; vm_compute; reflexivity|].
  intros peq Hp. exists (the (tbl_Aggregate peq T8)).
  exists (match Table_ goeqN (the (tbl_Aggregate peq T8)) with Some m => m | None => fresh end).
  exists (the (tbl_Aggregate peq (match Table_ goeqN (the (tbl_Aggregate peq T8)) with Some m => m | None => fresh end))).
  destruct Hp; subst peq; repeat split; vm_compute; reflexivity.
Qed.

(* ---- C18: the comparator is lost, so Diff and Map panic ---- *)
Theorem C18_refuted :
  exists (t t' : tableX N), reachN t /\
    forall peq, peq = never \/ peq = trie_eqb ->
    tbl_Aggregate peq t = Ok t' /\
    tbl_Map 0 boxN t' (Some (fun _ v (s : unit) => (s, v))) tt = Panic /\
    tbl_Diff 32 0 never t' t (S := unit) None None None None tt = Panic /\
    tbl_Aggregate peq t' = Panic.
Proof.
  exists T6, (the (tbl_Aggregate never T6)). split; [apply build_reach; vm_compute; reflexivity|].
  intros peq Hp. destruct Hp; subst peq; repeat split; vm_compute; reflexivity.
Qed.
(* ... and with a custom comparator Aggregate and Map themselves panic on a
   table with two unrelated entries, because the joining node has no value *)
Definition freshC : tableX N := {| tx_trie := Nil; tx_eq := Some (customComparator N.eqb) |}.
Definition TC : tableX N :=
  match runs 32 0 boxN (Some freshC) (ops_of [(pf 10 0 0 0 25, 1); (pf 10 0 0 128 25, 2)]) with Ok (Some t, _) => t | _ => freshC end.
Theorem C18_custom_comparator_refuted :
  NewTableCustomCompare_ N.eqb = Some freshC /\ reachN TC /\
  tbl_Aggregate trie_eqb TC = Panic /\
  tbl_Map 0 boxN TC (Some (fun _ v (s : unit) => (s, v))) tt = Panic.
Proof.
  split; [reflexivity|]. split; [|split; vm_compute; reflexivity].
  unfold TC. destruct (runs 32 0 boxN (Some freshC) _) as [[[t|] outs]| |] eqn:E;
    try (eapply reach_custom; reflexivity).
  eapply runs_reach; [| |exact E]; [eapply reach_custom; reflexivity|].
  apply Forall_forall. intros o Ho. unfold ops_of in Ho. apply in_map_iff in Ho.
  destruct Ho as ([p v] & <- & Hi). cbn. apply wfb_ok. destruct Hi as [Hi|[Hi|[]]]; injection Hi as <- <-; vm_compute; reflexivity.
Qed.

(* ---- C19: the mapper is called for a prefix that is not an entry ---- *)
Theorem C19_refuted :
  exists (t : tableX N) p v, reachN t /\ snd (Get 32 0 t (Some p)) = false /\
    exists log t', tbl_Map 0 boxN t (Some (fun p v (s : list (prefix * N)) => (s ++ [(p, v)], v + 1))) [] = Ok (log, t') /\
      In (p, v) log.
Proof.
  exists T2, (pf 10 0 0 0 24), 0. split; [apply build_reach; vm_compute; reflexivity|].
  split; [vm_compute; reflexivity|]. eexists _, _. split; [vm_compute; reflexivity|]. vm_compute. auto.
Qed.
Example T6b_unnested : forall p v q w, wf_prefix 32 p -> wf_prefix 32 q ->
  Get 32 0 T6b (Some p) = (v, true) -> Get 32 0 T6b (Some q) = (w, true) -> covers 32 p q -> (v =? w) = true.
Proof.
  intros p v q w Hp Hq Gp Gq Hc.
  assert (R : reachN T6b) by (apply build_reach; vm_compute; reflexivity).
  destruct (Get_entries _ _ _ R Hp Gp) as (e & Ie & Ke & Ve).
  destruct (Get_entries _ _ _ R Hq Gq) as (f & If & Kf & Vf).
  assert (EE : entries (tx_trie T6b) = [(pf 10 0 0 0 25, Some 1); (pf 10 0 0 128 25, Some 1); (pf 10 1 0 0 16, Some 2)])
    by (vm_compute; reflexivity).
  rewrite EE in Ie, If.
  assert (Wef : wf_prefix 32 (fst e) /\ wf_prefix 32 (fst f)).
  { split; eapply ewf; try (rewrite EE; eassumption); eapply (rwf 32 ip32 0 boxN goeqN); eauto. }
  destruct Wef as [We Wf].
  assert (Hc' : covers 32 (fst e) (fst f)).
  { apply (covers_pre 32); auto. apply (covers_pre 32) in Hc; auto.
    apply (key_eq_iff 32) in Ke; auto. apply (key_eq_iff 32) in Kf; auto. rewrite Ke, Kf. exact Hc. }
  destruct Hc' as [Hl Hin]. unfold in_prefix in Hin.
  repeat (destruct Ie as [Ie|Ie]; [|]); try contradiction; subst e;
  repeat (destruct If as [If|If]; [|]); try contradiction; subst f;
  cbn [fst snd unbox] in *; subst v w; try reflexivity; exfalso.
  all: try (vm_compute in Hin; discriminate Hin). all: vm_compute in Hl; apply Hl; reflexivity.
Qed.
Example T6b_merges : exists t', tbl_Aggregate never T6b = Ok t' /\ NumEntries t' = 2.
Proof. exists (the (tbl_Aggregate never T6b)). split; vm_compute; reflexivity. Qed.

(* ---- C16: what the specification function says ---- *)
(* three bits: /1 of value 1 with a /2 of value 2 inside, and the other /1 of value
   1: the halves merge and the entry of value 2 is gone *)
Definition M3 (k : list bool) : option N :=
  match k with [false] => Some 1 | [true] => Some 1 | [false; false] => Some 2 | _ => None end.
Example aggregated_ex : map (aggregated N.eqb 3 M3 None) [[]; [false]; [true]; [false; false]; [true; true]] =
  [Some 1; None; None; None; None].
Proof. reflexivity. Qed.
(* 00 -> 1 inside 0 -> 2 stays, 01 -> 2 is dropped, 1 -> 1 stays *)
Definition M3b (k : list bool) : option N :=
  match k with [false] => Some 2 | [true] => Some 1 | [false; false] => Some 1 | [false; true] => Some 2 | _ => None end.
Example aggregated_ex2 : map (aggregated N.eqb 3 M3b None) [[]; [false]; [true]; [false; false]; [false; true]] =
  [None; Some 2; Some 1; Some 1; None].
Proof. reflexivity. Qed.
(* T5 meets the hypotheses of C16_aggregate_function *)
Example C16_function_ex : reachN T5 /\ decides boxN T5 N.eqb /\ equivalence N.eqb /\ exists t', tbl_Aggregate never T5 = Ok t'.
Proof.
  split; [apply build_reach; vm_compute; reflexivity|]. split; [intros x y; reflexivity|].
  split; [split; [apply N.eqb_refl|split; intros *; rewrite !N.eqb_eq; congruence]|]. eexists. vm_compute. reflexivity.
Qed.
(* a table with one value, whose entries are nested, disjoint and mergeable *)
Definition T9 : tableX N := build [(pf 10 0 0 0 25, 7); (pf 10 0 0 128 25, 7); (pf 10 1 0 0 16, 7); (pf 10 1 2 0 24, 7)].
Example T9_single : reachN T9 /\ (forall p v q w, wf_prefix 32 p -> wf_prefix 32 q ->
    Get 32 0 T9 (Some p) = (v, true) -> Get 32 0 T9 (Some q) = (w, true) -> (v =? w) = true) /\
  exists t', tbl_Aggregate never T9 = Ok t' /\ NumEntries t' = 2 /\ Get 32 0 t' (Some (pf 10 0 0 0 24)) = (7, true) /\
    Get 32 0 t' (Some (pf 10 1 0 0 16)) = (7, true).
Proof.
  assert (R : reachN T9) by (apply build_reach; vm_compute; reflexivity). split; [exact R|]. split.
  - assert (X : forall p v, wf_prefix 32 p -> Get 32 0 T9 (Some p) = (v, true) -> v = 7).
    { intros p v Hp G. destruct (Get_entries _ _ _ R Hp G) as (e & Ie & _ & <-).
      assert (EE : map snd (entries (tx_trie T9)) = [Some 7; Some 7; Some 7; Some 7]) by (vm_compute; reflexivity).
      apply (in_map snd) in Ie. rewrite EE in Ie. repeat (destruct Ie as [<-|Ie]; [reflexivity|]). contradiction. }
    intros p v q w Hp Hq Gp Gq. rewrite (X _ _ Hp Gp), (X _ _ Hq Gq). reflexivity.
  - exists (the (tbl_Aggregate never T9)). repeat split; vm_compute; reflexivity.
Qed.
Example T9_idempotent : exists t' m t'', tbl_Aggregate never T9 = Ok t' /\ Table_ goeqN t' = Some m /\ tbl_Aggregate never m = Ok t'' /\
  decides boxN m N.eqb /\ NumEntries t'' = 2.
Proof.
  exists (the (tbl_Aggregate never T9)). eexists. eexists. split; [vm_compute; reflexivity|]. split; [reflexivity|].
  split; [vm_compute; reflexivity|]. split; [intros x y; reflexivity|vm_compute; reflexivity].
Qed.
