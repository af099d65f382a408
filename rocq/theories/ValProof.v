(* ValProof.v - arithmetic readings of the bit operations of Values.v. *)
From Verif Require Export KeyMore.
From Coq Require Import Arith ZifyBool ZifyNat ZifyN.

(* ---- land/lor with low ones ---- *)
Lemma lor_low x k y : y < 2 ^ k -> N.lor (x * 2 ^ k) y = x * 2 ^ k + y.
Proof.
  intros H. rewrite <- N.lxor_lor, N.add_nocarry_lxor; auto.
  all: apply N.bits_inj; intros i; rewrite N.land_spec, N.bits_0;
    destruct (N.lt_ge_cases i k) as [L|L];
    [rewrite N.mul_pow2_bits_low by auto; reflexivity|rewrite (testbit_high k y i) by auto; apply andb_false_r].
Qed.
Lemma lor_ones a k : N.lor a (N.ones k) = a / 2 ^ k * 2 ^ k + (2 ^ k - 1).
Proof.
  assert (P := pow2_pos k). rewrite <- lor_low by lia. rewrite N.sub_1_r, <- N.ones_equiv.
  apply N.bits_inj. intros i. rewrite !N.lor_spec.
  destruct (N.lt_ge_cases i k) as [L|L].
  - rewrite N.ones_spec_low by auto. rewrite !orb_true_r. reflexivity.
  - rewrite N.ones_spec_high by auto. rewrite !orb_false_r.
    rewrite N.mul_pow2_bits_high by auto. rewrite <- N.shiftr_div_pow2, N.shiftr_spec by lia. f_equal. lia.
Qed.

Section V.
Variable W : N.

Lemma mask_ldiff len : len <= W -> lengthToMask W len = N.ldiff (N.ones W) (N.ones (W - len)).
Proof.
  intros H. unfold lengthToMask. apply N.bits_inj. intros i. rewrite testbit_mask, N.ldiff_spec, !testbit_ones by auto.
  f_equal. destruct (N.leb_spec (W - len) i), (N.ltb_spec i (W - len)); try reflexivity; lia.
Qed.
Lemma mask_num len : len <= W -> lengthToMask W len = 2 ^ W - 2 ^ (W - len).
Proof.
  intros H. rewrite mask_ldiff by auto. rewrite N.ldiff_ones_r, N.shiftl_mul_pow2, N.shiftr_div_pow2, N.ones_equiv.
  set (k := W - len). assert (E : 2 ^ W = 2 ^ len * 2 ^ k) by (rewrite <- N.pow_add_r; f_equal; lia).
  pose proof (pow2_pos k). pose proof (pow2_pos len). rewrite E.
  assert (D : N.pred (2 ^ len * 2 ^ k) / 2 ^ k = 2 ^ len - 1).
  { symmetry. apply (N.div_unique _ _ _ (2 ^ k - 1)); [lia|].
    replace (2 ^ k * (2 ^ len - 1) + (2 ^ k - 1)) with (2 ^ k * (2 ^ len - 1 + 1) - 1) by lia.
    replace (2 ^ len - 1 + 1) with (2 ^ len) by lia. lia. }
  rewrite D. rewrite N.mul_sub_distr_r. lia.
Qed.
Lemma land_mask a len : a < 2 ^ W -> len <= W ->
  N.land a (lengthToMask W len) = a / 2 ^ (W - len) * 2 ^ (W - len).
Proof.
  intros Ha H. rewrite mask_ldiff by auto.
  replace (N.land a (N.ldiff (N.ones W) (N.ones (W - len)))) with (N.ldiff a (N.ones (W - len))).
  - rewrite N.ldiff_ones_r, N.shiftl_mul_pow2, N.shiftr_div_pow2. reflexivity.
  - apply N.bits_inj. intros i. rewrite N.land_spec, !N.ldiff_spec, !testbit_ones.
    destruct (N.ltb_spec i W); [reflexivity|]. rewrite (testbit_high W a i) by auto. reflexivity.
Qed.
Lemma wnot_mask len : len <= W -> wnot W (lengthToMask W len) = N.ones (W - len).
Proof.
  intros H. apply N.bits_inj. intros i. rewrite testbit_wnot. unfold lengthToMask. rewrite testbit_mask, testbit_ones by auto.
  destruct (N.ltb_spec i W), (N.leb_spec (W - len) i), (N.ltb_spec i (W - len)); try reflexivity; lia.
Qed.

Lemma Network_eq p : wf_prefix W p -> Network W p = mkPrefix (net W p) (plen p).
Proof. intros [Ha Hl]. unfold Network, prefix_mask. rewrite land_mask by auto. reflexivity. Qed.
Lemma Broadcast_eq p : wf_prefix W p ->
  Broadcast W p = mkPrefix (net W p + (2 ^ (W - plen p) - 1)) (plen p).
Proof. intros [Ha Hl]. unfold Broadcast, prefix_mask. rewrite wnot_mask, lor_ones by auto. reflexivity. Qed.
Lemma Host_eq p : wf_prefix W p -> Host W p = mkPrefix (paddr p mod 2 ^ (W - plen p)) (plen p).
Proof. intros [Ha Hl]. unfold Host, prefix_mask. rewrite wnot_mask, N.land_ones by auto. reflexivity. Qed.

Lemma net_le p : net W p <= paddr p.
Proof. unfold net. rewrite N.mul_comm. apply N.mul_div_le. apply N.pow_nonzero; lia. Qed.
Lemma net_host p : paddr p = net W p + paddr p mod 2 ^ (W - plen p).
Proof.
  unfold net. pose proof (N.div_mod (paddr p) (2 ^ (W - plen p)) ltac:(apply N.pow_nonzero; lia)). lia.
Qed.
Lemma in_prefix_bounds p a : in_prefix W p a <-> net W p <= a /\ a <= net W p + (2 ^ (W - plen p) - 1).
Proof.
  unfold in_prefix, net. set (k := 2 ^ (W - plen p)). assert (K : k <> 0) by (apply N.pow_nonzero; lia).
  pose proof (N.div_mod a k K) as D. pose proof (N.mod_lt a k K) as M. split.
  - intros E. rewrite <- E. lia.
  - intros [L U]. symmetry. apply (N.div_unique a k _ (a - paddr p / k * k)); lia.
Qed.
Lemma net_bound p : wf_prefix W p -> net W p + 2 ^ (W - plen p) <= 2 ^ W.
Proof.
  intros [Ha Hl]. unfold net. set (k := W - plen p). assert (E : 2 ^ W = 2 ^ plen p * 2 ^ k) by (rewrite <- N.pow_add_r; f_equal; lia).
  assert (D : paddr p / 2 ^ k < 2 ^ plen p).
  { apply N.div_lt_upper_bound; [apply N.pow_nonzero; lia|]. lia. }
  rewrite E. nia.
Qed.

(* ---- Halves ---- *)
Lemma Halves_eq p : wf_prefix W p -> plen p < W -> Halves W p = (half W false p, half W true p).
Proof.
  intros Hp Hl. unfold Halves. destruct (N.ltb_spec (plen p) W); [|lia]. rewrite Network_eq by auto. cbn [paddr].
  unfold half. f_equal; [f_equal; lia|]. f_equal.
  unfold wshr. destruct (N.leb_spec W (plen p)); [lia|]. rewrite N.shiftr_div_pow2.
  replace (2 ^ (W - 1)) with (2 ^ (W - plen p - 1) * 2 ^ plen p) by (rewrite <- N.pow_add_r; f_equal; lia).
  rewrite N.div_mul by (apply N.pow_nonzero; lia).
  unfold net. rewrite lor_low; auto. apply N.pow_lt_mono_r; lia.
Qed.

(* ---- leading zeros, population count ---- *)
Fixpoint lead (b : bool) (l : list bool) : N :=
  match l with [] => 0 | x :: l' => if Bool.eqb x b then 1 + lead b l' else 0 end.
Fixpoint cnt (b : bool) (l : list bool) : N :=
  match l with [] => 0 | x :: l' => (if Bool.eqb x b then 1 else 0) + cnt b l' end.

Lemma size_val l : nlen l - N.size (val l) = lead false l /\ N.size (val l) <= nlen l.
Proof.
  induction l as [|b l [IH B]]; cbn [val lead]; [split; [reflexivity|cbn; lia]|].
  rewrite nlen_cons. destruct b; cbn [Bool.eqb].
  - pose proof (val_lt l) as V. pose proof (pow2_pos (nlen l)).
    assert (E : N.size (2 ^ nlen l + val l) = nlen l + 1).
    { rewrite N.size_log2 by lia. rewrite (N.log2_unique _ (nlen l)); [lia|lia|].
      rewrite N.pow_succ_r'. lia. }
    rewrite E. lia.
  - rewrite N.add_0_l. lia.
Qed.
Lemma val_full a : a < 2 ^ W -> val (full W a) = a.
Proof.
  intros H. unfold full. rewrite val_top by lia. replace (W - N.of_nat (N.to_nat W)) with 0 by lia. apply N.div_1_r.
Qed.
Lemma full_val l : nlen l = W -> full W (val l) = l.
Proof.
  intros H. apply val_inj; [rewrite full_length; unfold nlen in H; lia|].
  apply val_full. rewrite <- H. apply val_lt.
Qed.
Lemma nlen_full' a : nlen (full W a) = W.
Proof. unfold nlen. rewrite full_length. lia. Qed.
Lemma clz_lead a : a < 2 ^ W -> clz W a = lead false (full W a).
Proof.
  intros H. unfold clz. destruct (size_val (full W a)) as [S _]. rewrite <- S, nlen_full', val_full by auto. reflexivity.
Qed.
Lemma popcount_double x : popcount (2 * x) = popcount x.
Proof. destruct x; reflexivity. Qed.
Lemma popcount_succ_double x : popcount (2 * x + 1) = 1 + popcount x.
Proof. destruct x; reflexivity. Qed.
Lemma popcount_val l : popcount (val l) = cnt true l.
Proof.
  induction l as [|b l IH] using rev_ind; [reflexivity|].
  rewrite val_app. cbn [val]. change (nlen [b]) with 1. change (2 ^ 1) with 2. change (nlen (@nil bool)) with 0. change (2 ^ 0) with 1.
  assert (C : cnt true (l ++ [b]) = cnt true l + if b then 1 else 0).
  { clear. induction l as [|x l IH]; cbn [cnt app]; [destruct b; reflexivity|]. rewrite IH. lia. }
  rewrite C, <- IH. destruct b.
  - replace (val l * 2 + (1 + 0)) with (2 * val l + 1) by lia. rewrite popcount_succ_double. lia.
  - replace (val l * 2 + (0 + 0)) with (2 * val l) by lia. rewrite popcount_double. lia.
Qed.
Lemma popcount_cnt a : a < 2 ^ W -> popcount a = cnt true (full W a).
Proof. intros H. rewrite <- popcount_val, val_full by auto. reflexivity. Qed.
Lemma wnot_lt a : a < 2 ^ W -> wnot W a < 2 ^ W.
Proof.
  intros H. apply bits_lt. intros i Hi. rewrite testbit_wnot, (testbit_high W a i) by auto.
  destruct (N.ltb_spec i W); [lia|reflexivity].
Qed.
Lemma full_wnot a : full W (wnot W a) = map negb (full W a).
Proof.
  unfold full, top. rewrite map_map. apply map_ext_in. intros i Hi. apply in_seq in Hi. rewrite testbit_wnot.
  destruct (N.ltb_spec (W - 1 - N.of_nat i) W) as [L|L]; [apply xorb_true_r|lia].
Qed.
Lemma lead_negb b l : lead b (map negb l) = lead (negb b) l.
Proof. induction l as [|x l IH]; cbn [lead map]; [reflexivity|]. rewrite IH. destruct x, b; reflexivity. Qed.
Lemma cnt_negb b l : cnt b (map negb l) = cnt (negb b) l.
Proof. induction l as [|x l IH]; cbn [cnt map]; [reflexivity|]. rewrite IH. destruct x, b; reflexivity. Qed.
Lemma lead_le b l : lead b l <= cnt b l /\ cnt b l <= nlen l.
Proof.
  induction l as [|x l [IH1 IH2]]; cbn [lead cnt]; [cbn; lia|]. rewrite nlen_cons. destruct (Bool.eqb x b); lia.
Qed.
(* the leading b's are all the b's: the list is b...b c...c *)
Lemma lead_cnt b l : lead b l = cnt b l <-> l = repeat b (N.to_nat (lead b l)) ++ repeat (negb b) (N.to_nat (nlen l - lead b l)).
Proof.
  induction l as [|x l IH]; cbn [lead cnt]; [split; reflexivity|]. rewrite nlen_cons.
  destruct (lead_le b l) as [B1 B2]. destruct (Bool.eqb_spec x b) as [->|Hx].
  - replace (N.to_nat (1 + lead b l)) with (S (N.to_nat (lead b l))) by lia.
    replace (nlen l + 1 - (1 + lead b l)) with (nlen l - lead b l) by lia. cbn [repeat app]. split.
    + intros E. f_equal. apply IH. lia.
    + intros E. injection E as E. apply IH in E. lia.
  - replace (N.to_nat (nlen l + 1 - 0)) with (S (N.to_nat (nlen l))) by lia. cbn [repeat app N.to_nat].
    assert (x = negb b) as -> by (destruct x, b; auto; congruence). split.
    + intros E. f_equal. assert (C : cnt b l = 0) by lia. clear -C.
      induction l as [|y l IH]; [reflexivity|]. cbn [cnt] in C. rewrite nlen_cons.
      replace (N.to_nat (nlen l + 1)) with (S (N.to_nat (nlen l))) by lia. cbn [repeat].
      destruct (Bool.eqb_spec y b) as [->|Hy]; [lia|]. f_equal; [destruct y, b; auto; congruence|]. apply IH. lia.
    + intros E. injection E as E. rewrite E. clear. induction (N.to_nat (nlen l)) as [|n IH]; [reflexivity|].
      cbn [repeat cnt]. destruct b; cbn; auto.
Qed.
Lemma val_repeat_false n : val (repeat false n) = 0.
Proof. induction n as [|n IH]; [reflexivity|]. cbn [repeat val]. rewrite IH. reflexivity. Qed.
Lemma nlen_repeat {A} (x : A) n : nlen (repeat x n) = N.of_nat n.
Proof. unfold nlen. rewrite repeat_length. reflexivity. Qed.
Lemma val_repeat_true n : val (repeat true n) = 2 ^ N.of_nat n - 1.
Proof.
  induction n as [|n IH]; [reflexivity|]. cbn [repeat val]. rewrite IH, nlen_repeat.
  replace (N.of_nat (S n)) with (N.succ (N.of_nat n)) by lia. rewrite N.pow_succ_r'. pose proof (pow2_pos (N.of_nat n)). lia.
Qed.
Lemma val_mask n m : val (repeat true n ++ repeat false m) = 2 ^ N.of_nat (n + m) - 2 ^ N.of_nat m.
Proof.
  rewrite val_app, val_repeat_true, val_repeat_false, nlen_repeat.
  replace (N.of_nat (n + m)) with (N.of_nat n + N.of_nat m) by lia. rewrite N.pow_add_r, N.mul_sub_distr_r. lia.
Qed.

Lemma mask_lt n : n <= W -> 2 ^ W - 2 ^ (W - n) < 2 ^ W.
Proof. intros H. pose proof (pow2_pos (W - n)). pose proof (pow2_pos W). lia. Qed.
Lemma full_mask n : n <= W -> full W (2 ^ W - 2 ^ (W - n)) = repeat true (N.to_nat n) ++ repeat false (N.to_nat (W - n)).
Proof.
  intros H. apply val_inj; [rewrite full_length, app_length, !repeat_length; lia|].
  rewrite val_full by (apply mask_lt; auto). rewrite val_mask. f_equal; f_equal; lia.
Qed.
Lemma lead_mask n m : lead true (repeat true n ++ repeat false m) = N.of_nat n.
Proof.
  induction n as [|n IH]; cbn [repeat app lead]; [destruct m; reflexivity|]. rewrite IH. cbn [Bool.eqb]. lia.
Qed.
Lemma mask_length_lead x : x < 2 ^ W -> mask_length W x = lead true (full W x).
Proof. intros H. unfold mask_length. rewrite clz_lead by (apply wnot_lt; auto). rewrite full_wnot, lead_negb. reflexivity. Qed.
Lemma mask_length_mask n : n <= W -> mask_length W (2 ^ W - 2 ^ (W - n)) = n.
Proof. intros H. rewrite mask_length_lead by (apply mask_lt; auto). rewrite full_mask, lead_mask by auto. lia. Qed.
Lemma mask_valid_iff x : x < 2 ^ W -> mask_valid W x = true <-> exists n, n <= W /\ x = 2 ^ W - 2 ^ (W - n).
Proof.
  intros H. unfold mask_valid. rewrite N.eqb_eq, mask_length_lead, popcount_cnt by auto. rewrite lead_cnt. split.
  - intros E. exists (lead true (full W x)). destruct (lead_le true (full W x)) as [A B]. rewrite nlen_full' in *.
    split; [lia|]. rewrite <- (val_full x H) at 1. rewrite E at 1. rewrite val_mask. f_equal; f_equal; lia.
  - intros (n & Hn & ->). rewrite full_mask, lead_mask by auto. unfold nlen. rewrite app_length, !repeat_length.
    f_equal; f_equal; lia.
Qed.
End V.
