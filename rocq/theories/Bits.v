(* Bits.v - bit-string view of words: proofs only. *)
From Verif Require Export Trie.
From Coq Require Import Arith.
From Coq Require Import ZifyBool ZifyNat ZifyN.

Definition nlen {A} (l : list A) : N := N.of_nat (length l).

(* the first n bits of a W-bit word, most significant first *)
Definition top (W a : N) (n : nat) : list bool :=
  map (fun i => N.testbit a (W - 1 - N.of_nat i)) (seq 0 n).
Definition key (W : N) (p : prefix) : list bool := top W (paddr p) (N.to_nat (plen p)).

Definition pre (k l : list bool) : Prop := exists r, l = k ++ r.

Lemma top_length W a n : length (top W a n) = n.
Proof. unfold top. rewrite map_length, seq_length. reflexivity. Qed.

Lemma key_length W p : length (key W p) = N.to_nat (plen p).
Proof. apply top_length. Qed.

Lemma top_nth W a n i : (i < n)%nat ->
  nth_error (top W a n) i = Some (N.testbit a (W - 1 - N.of_nat i)).
Proof.
  intros H. unfold top. rewrite nth_error_map.
  replace (nth_error (seq 0 n) i) with (Some i); [reflexivity|].
  symmetry. rewrite (nth_error_nth' _ 0%nat) by (rewrite seq_length; exact H).
  rewrite seq_nth by exact H. reflexivity.
Qed.

Lemma top_split W a n m : top W a (n + m) = top W a n ++ map (fun i => N.testbit a (W - 1 - N.of_nat i)) (seq n m).
Proof. unfold top. rewrite seq_app, map_app. reflexivity. Qed.

Lemma top_pre W a n m : (n <= m)%nat -> pre (top W a n) (top W a m).
Proof.
  intros H. replace m with (n + (m - n))%nat by lia. rewrite top_split. eexists; reflexivity.
Qed.

Lemma top_firstn W a n m : (n <= m)%nat -> firstn n (top W a m) = top W a n.
Proof.
  intros H. replace m with (n + (m - n))%nat by lia. rewrite top_split.
  rewrite firstn_app, top_length, Nat.sub_diag. simpl.
  rewrite app_nil_r. rewrite <- (top_length W a n) at 1. apply firstn_all.
Qed.

Lemma nth_error_ext {A} (l l' : list A) : length l = length l' ->
  (forall i, (i < length l)%nat -> nth_error l i = nth_error l' i) -> l = l'.
Proof.
  revert l'. induction l as [|x l IH]; intros [|y l'] HL H; simpl in *; try discriminate; [reflexivity|].
  f_equal.
  - specialize (H 0%nat ltac:(lia)). simpl in H. congruence.
  - apply IH; [lia|]. intros i Hi. apply (H (S i)). lia.
Qed.

Lemma top_eq_iff W a b n :
  top W a n = top W b n <->
  (forall i, (i < n)%nat -> N.testbit a (W - 1 - N.of_nat i) = N.testbit b (W - 1 - N.of_nat i)).
Proof.
  split.
  - intros H i Hi.
    assert (nth_error (top W a n) i = nth_error (top W b n) i) as E by (rewrite H; reflexivity).
    rewrite !top_nth in E by exact Hi. congruence.
  - intros H. apply nth_error_ext; [rewrite !top_length; reflexivity|].
    rewrite top_length. intros i Hi. rewrite !top_nth by exact Hi. rewrite H by exact Hi. reflexivity.
Qed.

Lemma testbit_high W a i : a < 2 ^ W -> W <= i -> N.testbit a i = false.
Proof.
  intros Ha Hi. destruct (N.eq_dec a 0) as [->|Hn]; [apply N.bits_0|].
  apply N.bits_above_log2. apply N.log2_lt_pow2 in Ha; lia.
Qed.

Lemma top_eq_div W a b n : a < 2 ^ W -> b < 2 ^ W -> n <= W ->
  top W a (N.to_nat n) = top W b (N.to_nat n) <-> a / 2 ^ (W - n) = b / 2 ^ (W - n).
Proof.
  intros Ha Hb Hn. rewrite top_eq_iff, <- !N.shiftr_div_pow2. split.
  - intros H. apply N.bits_inj. intros i. rewrite !N.shiftr_spec by lia.
    destruct (N.lt_ge_cases (i + (W - n)) W) as [Hi|Hi].
    + specialize (H (N.to_nat (W - 1 - (i + (W - n)))) ltac:(lia)).
      rewrite N2Nat.id in H.
      replace (W - 1 - (W - 1 - (i + (W - n)))) with (i + (W - n)) in H by lia. exact H.
    + rewrite !(testbit_high W) by assumption. reflexivity.
  - intros H i Hi.
    assert (forall j, N.testbit (N.shiftr a (W - n)) j = N.testbit (N.shiftr b (W - n)) j) as H'
      by (intros j; rewrite H; reflexivity).
    specialize (H' (W - 1 - N.of_nat i - (W - n))). rewrite !N.shiftr_spec in H' by lia.
    replace (W - 1 - N.of_nat i - (W - n) + (W - n)) with (W - 1 - N.of_nat i) in H' by lia. exact H'.
Qed.

Lemma top_inj W a b : a < 2 ^ W -> b < 2 ^ W ->
  top W a (N.to_nat W) = top W b (N.to_nat W) -> a = b.
Proof.
  intros Ha Hb H. apply top_eq_div in H; try assumption; [|lia].
  rewrite N.sub_diag in H. simpl in H. rewrite !N.div_1_r in H. exact H.
Qed.

(* ---- pre ---- *)
Lemma pre_refl k : pre k k.
Proof. exists []. rewrite app_nil_r. reflexivity. Qed.
Lemma pre_trans a b c : pre a b -> pre b c -> pre a c.
Proof. intros [r ->] [s ->]. exists (r ++ s). rewrite app_assoc. reflexivity. Qed.
Lemma pre_nil k : pre [] k.
Proof. exists k. reflexivity. Qed.
Lemma pre_length k l : pre k l -> (length k <= length l)%nat.
Proof. intros [r ->]. rewrite app_length. lia. Qed.
Lemma pre_firstn k l : pre k l <-> firstn (length k) l = k.
Proof.
  split.
  - intros [r ->]. rewrite firstn_app, Nat.sub_diag, firstn_all. simpl. apply app_nil_r.
  - intros H. exists (skipn (length k) l). rewrite <- H at 1. symmetry. apply firstn_skipn.
Qed.
Lemma pre_antisym k l : pre k l -> pre l k -> k = l.
Proof.
  intros [r ->] H. apply pre_length in H. rewrite app_length in H.
  destruct r; [rewrite app_nil_r; reflexivity|simpl in H; lia].
Qed.
Lemma pre_eq_length k l : pre k l -> length k = length l -> k = l.
Proof. intros [r ->] H. rewrite app_length in H. destruct r; [rewrite app_nil_r; reflexivity|simpl in H; lia]. Qed.
Lemma pre_comparable k l m : pre k m -> pre l m -> (length k <= length l)%nat -> pre k l.
Proof.
  intros Hk Hl H. apply pre_firstn in Hk. apply pre_firstn in Hl. apply pre_firstn.
  rewrite <- Hl. rewrite firstn_firstn. rewrite Nat.min_l by lia. exact Hk.
Qed.
Lemma pre_app k l r : pre (k ++ l) r -> pre k r.
Proof. intros [s ->]. exists (l ++ s). rewrite app_assoc. reflexivity. Qed.
Lemma pre_app_r k r : pre k (k ++ r).
Proof. exists r; reflexivity. Qed.
Lemma pre_snoc_inj k b b' l : pre (k ++ [b]) l -> pre (k ++ [b']) l -> b = b'.
Proof.
  intros H1 H2. assert (k ++ [b] = k ++ [b']) as E.
  { apply pre_eq_length; [|rewrite !app_length; reflexivity].
    eapply pre_comparable; try eassumption. rewrite !app_length; reflexivity. }
  apply app_inv_head in E. congruence.
Qed.
Lemma pre_app_cancel k a b : pre (k ++ a) (k ++ b) <-> pre a b.
Proof.
  split; intros [r H].
  - exists r. rewrite <- app_assoc in H. apply app_inv_head in H. exact H.
  - exists r. rewrite H, app_assoc. reflexivity.
Qed.
Lemma pre_dec k l : {pre k l} + {~ pre k l}.
Proof.
  destruct (list_eq_dec Bool.bool_dec (firstn (length k) l) k) as [E|E].
  - left. apply pre_firstn. exact E.
  - right. intros H. apply E. apply pre_firstn. exact H.
Qed.
(* strict extension goes through exactly one child *)
Lemma pre_strict k l : pre k l -> k <> l -> exists c, pre (k ++ [c]) l.
Proof.
  intros [r ->] H. destruct r as [|c r]; [rewrite app_nil_r in H; congruence|].
  exists c, r. rewrite <- app_assoc. reflexivity.
Qed.
Lemma pre_snoc_not k c : ~ pre (k ++ [c]) k.
Proof. intros H. apply pre_length in H. rewrite app_length in H. simpl in H. lia. Qed.

(* two strings: one is a prefix of the other, or they fork *)
Lemma fork_cases (a b : list bool) :
  a = b \/ (exists c r, b = a ++ c :: r) \/ (exists c r, a = b ++ c :: r) \/
  (exists p c ra rb, a = p ++ c :: ra /\ b = p ++ negb c :: rb).
Proof.
  revert b. induction a as [|x a IH]; intros [|y b].
  - left; reflexivity.
  - right; left. exists y, b. reflexivity.
  - right; right; left. exists x, a. reflexivity.
  - destruct (Bool.bool_dec x y) as [->|Hxy].
    + destruct (IH b) as [->|[(c & r & ->)|[(c & r & ->)|(p & c & ra & rb & -> & ->)]]].
      * left; reflexivity.
      * right; left. exists c, r. reflexivity.
      * right; right; left. exists c, r. reflexivity.
      * right; right; right. exists (y :: p), c, ra, rb. split; reflexivity.
    + right; right; right. exists [], x, a, b. split; [reflexivity|].
      destruct x, y; simpl; congruence.
Qed.

(* ---- words ---- *)
Lemma wsub_len W len : W < 2 ^ 32 -> len <= W -> wsub 32 W len = W - len.
Proof.
  intros HW Hl. unfold wsub. rewrite (N.mod_small len) by lia.
  replace (W + (2 ^ 32 - len)) with (W - len + 1 * 2 ^ 32) by lia.
  rewrite N.mod_add by lia. apply N.mod_small. lia.
Qed.

Lemma testbit_wshl W x n i : N.testbit (wshl W x n) i = (i <? W) && (n <=? i) && N.testbit x (i - n).
Proof.
  unfold wshl. destruct (N.leb_spec W n) as [H|H].
  - rewrite N.bits_0. destruct (N.ltb_spec i W), (N.leb_spec n i); try reflexivity. lia.
  - destruct (N.ltb_spec i W) as [Hi|Hi].
    + rewrite N.mod_pow2_bits_low by exact Hi.
      destruct (N.leb_spec n i) as [Hn|Hn].
      * rewrite N.shiftl_spec_high by lia. reflexivity.
      * rewrite N.shiftl_spec_low by lia. reflexivity.
    + rewrite N.mod_pow2_bits_high by exact Hi. reflexivity.
Qed.

Lemma testbit_ones W i : N.testbit (N.ones W) i = (i <? W).
Proof.
  destruct (N.ltb_spec i W) as [H|H]; [apply N.ones_spec_low|apply N.ones_spec_high]; assumption.
Qed.

Lemma testbit_wnot W x i : N.testbit (wnot W x) i = xorb (N.testbit x i) (i <? W).
Proof. unfold wnot. rewrite N.lxor_spec, testbit_ones. reflexivity. Qed.

Lemma testbit_mask W len i : len <= W ->
  N.testbit (wshl W (N.ones W) (W - len)) i = (i <? W) && (W - len <=? i).
Proof.
  intros H. rewrite testbit_wshl, testbit_ones.
  destruct (N.ltb_spec i W), (N.leb_spec (W - len) i), (N.ltb_spec (i - (W - len)) W); try reflexivity; lia.
Qed.

Lemma testbit_wshr W x n i : x < 2 ^ W -> N.testbit (wshr W x n) i = N.testbit x (i + n).
Proof.
  intros Hx. unfold wshr. destruct (N.leb_spec W n) as [H|H].
  - rewrite N.bits_0. symmetry. apply (testbit_high W); [assumption|lia].
  - rewrite N.shiftr_spec by lia. reflexivity.
Qed.

Lemma testbit_pow2 n i : N.testbit (2 ^ n) i = (i =? n).
Proof. rewrite N.pow2_bits_eqb. apply N.eqb_sym. Qed.

Lemma bits_lt W a : (forall i, W <= i -> N.testbit a i = false) -> a < 2 ^ W.
Proof.
  intros H. destruct (N.lt_ge_cases a (2 ^ W)) as [Hl|Hl]; [exact Hl|exfalso].
  assert (a <> 0) as Hn. { intros ->. assert (0 < 2 ^ W) by (apply N.neq_0_lt_0, N.pow_nonzero; lia). lia. }
  assert (W <= N.log2 a) as HL.
  { apply N.log2_le_pow2; lia. }
  specialize (H _ HL). rewrite N.bit_log2 in H by exact Hn. discriminate.
Qed.

Lemma pow2_pos n : 0 < 2 ^ n.
Proof. apply N.neq_0_lt_0, N.pow_nonzero. lia. Qed.

Lemma pivot_test W a n : 0 < W -> n < W ->
  negb (N.land a (wshr W (2 ^ (W - 1)) n) =? 0) = N.testbit a (W - 1 - n).
Proof.
  intros HW Hn.
  assert (2 ^ (W - 1) < 2 ^ W) as Hp by (apply N.pow_lt_mono_r; lia).
  assert (forall i, N.testbit (N.land a (wshr W (2 ^ (W - 1)) n)) i
                    = N.testbit a i && (i =? W - 1 - n)) as HB.
  { intros i. rewrite N.land_spec, testbit_wshr, testbit_pow2 by exact Hp.
    f_equal. destruct (N.eqb_spec (i + n) (W - 1)), (N.eqb_spec i (W - 1 - n)); try reflexivity; lia. }
  destruct (N.testbit a (W - 1 - n)) eqn:E.
  - destruct (N.eqb_spec (N.land a (wshr W (2 ^ (W - 1)) n)) 0) as [H0|H0]; [|reflexivity].
    specialize (HB (W - 1 - n)). rewrite H0, N.bits_0, E, N.eqb_refl in HB. discriminate.
  - destruct (N.eqb_spec (N.land a (wshr W (2 ^ (W - 1)) n)) 0) as [H0|H0]; [reflexivity|].
    exfalso. apply H0. apply N.bits_inj. intros i. rewrite HB, N.bits_0.
    destruct (N.eqb_spec i (W - 1 - n)) as [->|]; [rewrite E; reflexivity|apply andb_false_r].
Qed.

(* land with a length-n mask compares the first n bits *)
Lemma mask_match W a b n : n <= W -> a < 2 ^ W -> b < 2 ^ W ->
  (N.land a (wshl W (N.ones W) (W - n)) =? N.land b (wshl W (N.ones W) (W - n))) = true <->
  top W a (N.to_nat n) = top W b (N.to_nat n).
Proof.
  intros Hn Ha Hb. rewrite N.eqb_eq, top_eq_iff. split.
  - intros H i Hi.
    assert (N.testbit (N.land a (wshl W (N.ones W) (W - n))) (W - 1 - N.of_nat i)
          = N.testbit (N.land b (wshl W (N.ones W) (W - n))) (W - 1 - N.of_nat i)) as E
      by (rewrite H; reflexivity).
    rewrite !N.land_spec, !testbit_mask in E by exact Hn.
    replace (W - 1 - N.of_nat i <? W) with true in E by lia.
    replace (W - n <=? W - 1 - N.of_nat i) with true in E by lia.
    rewrite !andb_true_r in E. exact E.
  - intros H. apply N.bits_inj. intros i. rewrite !N.land_spec, !testbit_mask by exact Hn.
    destruct (N.ltb_spec i W); destruct (N.leb_spec (W - n) i); simpl; rewrite ?andb_false_r; try reflexivity.
    specialize (H (N.to_nat (W - 1 - i)) ltac:(lia)). rewrite N2Nat.id in H.
    replace (W - 1 - (W - 1 - i)) with i in H by lia. rewrite H. reflexivity.
Qed.

(* leading zeros of a xor = length of the common bit string *)
Lemma clz_fork W a b p c ra rb na nb :
  0 < W -> a < 2 ^ W -> b < 2 ^ W -> (na <= N.to_nat W)%nat -> (nb <= N.to_nat W)%nat ->
  top W a na = p ++ c :: ra -> top W b nb = p ++ negb c :: rb ->
  clz W (N.lxor a b) = nlen p.
Proof.
  intros HW Ha Hb Hna Hnb Ea Eb. unfold clz, nlen.
  set (m := length p).
  assert (m < na)%nat as Hma.
  { rewrite <- (top_length W a na), Ea, app_length. simpl. lia. }
  assert (m < nb)%nat as Hmb.
  { rewrite <- (top_length W b nb), Eb, app_length. simpl. lia. }
  assert (forall i, (i < m)%nat -> N.testbit a (W - 1 - N.of_nat i) = N.testbit b (W - 1 - N.of_nat i)) as Hlow.
  { intros i Hi. assert (nth_error (top W a na) i = nth_error (top W b nb) i) as E.
    { rewrite Ea, Eb. rewrite !nth_error_app1 by exact Hi. reflexivity. }
    rewrite !top_nth in E by lia. congruence. }
  assert (N.testbit a (W - 1 - N.of_nat m) = c) as Hca.
  { assert (nth_error (top W a na) m = Some c) as E.
    { rewrite Ea, nth_error_app2 by reflexivity. unfold m. rewrite Nat.sub_diag. reflexivity. }
    rewrite top_nth in E by lia. congruence. }
  assert (N.testbit b (W - 1 - N.of_nat m) = negb c) as Hcb.
  { assert (nth_error (top W b nb) m = Some (negb c)) as E.
    { rewrite Eb, nth_error_app2 by reflexivity. unfold m. rewrite Nat.sub_diag. reflexivity. }
    rewrite top_nth in E by lia. congruence. }
  set (x := N.lxor a b).
  assert (N.testbit x (W - 1 - N.of_nat m) = true) as Hx1.
  { unfold x. rewrite N.lxor_spec, Hca, Hcb. destruct c; reflexivity. }
  assert (forall j, W - N.of_nat m <= j -> N.testbit x j = false) as Hx0.
  { intros j Hj. unfold x. rewrite N.lxor_spec.
    destruct (N.lt_ge_cases j W) as [Hl|Hl].
    - specialize (Hlow (N.to_nat (W - 1 - j)) ltac:(lia)). rewrite N2Nat.id in Hlow.
      replace (W - 1 - (W - 1 - j)) with j in Hlow by lia. rewrite Hlow. apply xorb_nilpotent.
    - rewrite !(testbit_high W) by assumption. reflexivity. }
  assert (N.size x = W - N.of_nat m) as Hs.
  { assert (x <> 0) as Hn by (intros E; rewrite E, N.bits_0 in Hx1; discriminate).
    rewrite N.size_log2 by exact Hn.
    assert (x < 2 ^ (W - N.of_nat m)) as Hlt by (apply bits_lt; exact Hx0).
    apply N.log2_lt_pow2 in Hlt; [|lia].
    assert (~ N.log2 x < W - 1 - N.of_nat m) as Hge.
    { intros HL. rewrite N.bits_above_log2 in Hx1 by exact HL. discriminate. }
    lia. }
  rewrite Hs. lia.
Qed.
