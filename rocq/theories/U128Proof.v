(* U128Proof.v - the struct uint128 read as the number high*2^64+low. *)
From Verif Require Export U128 ValProof.
From Coq Require Import Arith ZifyBool ZifyNat ZifyN.

Definition num (u : u128) : N := high u * 2 ^ 64 + low u.
Definition wfu (u : u128) : Prop := high u < 2 ^ 64 /\ low u < 2 ^ 64.

Lemma num_lor u : wfu u -> num u = N.lor (N.shiftl (high u) 64) (low u).
Proof. intros [Hh Hl]. unfold num. rewrite N.shiftl_mul_pow2, lor_low by auto. reflexivity. Qed.
Lemma num_lt u : wfu u -> num u < 2 ^ 128.
Proof. intros [Hh Hl]. unfold num. change (2 ^ 128) with (2 ^ 64 * 2 ^ 64). nia. Qed.
Lemma num_bits u i : wfu u -> N.testbit (num u) i = if i <? 64 then N.testbit (low u) i else N.testbit (high u) (i - 64).
Proof.
  intros H. rewrite num_lor by auto. destruct H as [Hh Hl]. rewrite N.lor_spec.
  destruct (N.ltb_spec i 64) as [L|L].
  - rewrite N.shiftl_spec_low by auto. reflexivity.
  - rewrite N.shiftl_spec_high by lia. rewrite (testbit_high 64 (low u)) by auto. apply orb_false_r.
Qed.
Lemma num_inj a b : wfu a -> wfu b -> num a = num b -> a = b.
Proof.
  intros [A1 A2] [B1 B2] E. unfold num in E. destruct a as [ah al], b as [bh bl]. cbn in *.
  assert (ah = bh) by nia. subst. f_equal. lia.
Qed.
Definition of_num (x : N) : u128 := mkU (x / 2 ^ 64) (x mod 2 ^ 64).
Lemma of_num_wf x : x < 2 ^ 128 -> wfu (of_num x).
Proof.
  intros H. split; cbn; [apply N.div_lt_upper_bound; [discriminate|exact H]|apply N.mod_lt; discriminate].
Qed.
Lemma num_of_num x : num (of_num x) = x.
Proof. unfold num, of_num. cbn. rewrite N.mul_comm. symmetry. apply N.div_mod. discriminate. Qed.

(* a word operation acting on each bit *)
Lemma bits_eq x y : (forall i, N.testbit x i = N.testbit y i) -> x = y.
Proof. intros H. apply N.bits_inj. intros i. apply H. Qed.

Lemma land_lt a b n : a < 2 ^ n -> N.land a b < 2 ^ n.
Proof. intros H. apply bits_lt. intros i Hi. rewrite N.land_spec, (testbit_high n a) by auto. reflexivity. Qed.
Lemma lor_lt a b n : a < 2 ^ n -> b < 2 ^ n -> N.lor a b < 2 ^ n.
Proof. intros H H'. apply bits_lt. intros i Hi. rewrite N.lor_spec, (testbit_high n a), (testbit_high n b) by auto. reflexivity. Qed.
Lemma lxor_lt a b n : a < 2 ^ n -> b < 2 ^ n -> N.lxor a b < 2 ^ n.
Proof. intros H H'. apply bits_lt. intros i Hi. rewrite N.lxor_spec, (testbit_high n a), (testbit_high n b) by auto. reflexivity. Qed.
Lemma wshl_lt W x n : wshl W x n < 2 ^ W.
Proof. apply bits_lt. intros i Hi. rewrite testbit_wshl. destruct (N.ltb_spec i W); [lia|reflexivity]. Qed.
Lemma wshr_lt W x n : x < 2 ^ W -> wshr W x n < 2 ^ W.
Proof. intros H. apply bits_lt. intros i Hi. rewrite testbit_wshr by auto. apply (testbit_high W); auto. lia. Qed.

Lemma u_and_num a b : wfu a -> wfu b -> wfu (u_and a b) /\ num (u_and a b) = N.land (num a) (num b).
Proof.
  intros Ha Hb. assert (H : wfu (u_and a b)) by (destruct Ha, Hb; split; cbn; apply land_lt; auto).
  split; auto. apply bits_eq. intros i. rewrite N.land_spec, !num_bits by auto. cbn.
  destruct (i <? 64); apply N.land_spec.
Qed.
Lemma u_or_num a b : wfu a -> wfu b -> wfu (u_or a b) /\ num (u_or a b) = N.lor (num a) (num b).
Proof.
  intros Ha Hb. assert (H : wfu (u_or a b)) by (destruct Ha, Hb; split; cbn; apply lor_lt; auto).
  split; auto. apply bits_eq. intros i. rewrite N.lor_spec, !num_bits by auto. cbn.
  destruct (i <? 64); apply N.lor_spec.
Qed.
Lemma u_xor_num a b : wfu a -> wfu b -> wfu (u_xor a b) /\ num (u_xor a b) = N.lxor (num a) (num b).
Proof.
  intros Ha Hb. assert (H : wfu (u_xor a b)) by (destruct Ha, Hb; split; cbn; apply lxor_lt; auto).
  split; auto. apply bits_eq. intros i. rewrite N.lxor_spec, !num_bits by auto. cbn.
  destruct (i <? 64); apply N.lxor_spec.
Qed.
Lemma u_not_num a : wfu a -> wfu (u_not a) /\ num (u_not a) = wnot 128 (num a).
Proof.
  intros Ha. assert (H : wfu (u_not a)) by (destruct Ha; split; cbn; apply wnot_lt; auto).
  split; auto. apply bits_eq. intros i. rewrite testbit_wnot, !num_bits by auto. cbn [u_not high low].
  rewrite !testbit_wnot. destruct (N.ltb_spec i 64), (N.ltb_spec i 128), (N.ltb_spec (i - 64) 64); try reflexivity; try lia.
Qed.
Lemma u_shl_num a n : wfu a -> wfu (u_shl a n) /\ num (u_shl a n) = wshl 128 (num a) n.
Proof.
  intros Ha. pose proof Ha as [Hh Hl].
  assert (H : wfu (u_shl a n)).
  { unfold u_shl. destruct (128 <=? n); [split; reflexivity|]. destruct (64 <=? n); split; cbn [high low];
      try reflexivity; auto using wshl_lt. apply lor_lt; auto using wshl_lt, wshr_lt. }
  split; auto. apply bits_eq. intros i. rewrite testbit_wshl, num_bits by auto. unfold u_shl in *.
  destruct (N.leb_spec 128 n) as [L|L].
  { cbn [high low]. rewrite !N.bits_0. destruct (N.ltb_spec i 128), (N.leb_spec n i); try lia; destruct (i <? 64); reflexivity. }
  rewrite num_bits by auto.
  destruct (N.leb_spec 64 n) as [M|M]; cbn [high low].
  - rewrite testbit_wshl, N.bits_0.
    destruct (N.ltb_spec i 64).
    + destruct (N.leb_spec n i); [lia|]. rewrite andb_false_r. reflexivity.
    + destruct (N.ltb_spec (i - 64) 64), (N.ltb_spec i 128), (N.leb_spec (n - 64) (i - 64)), (N.leb_spec n i); try lia; cbn; auto.
      destruct (N.ltb_spec (i - n) 64); [f_equal; lia|lia].
  - destruct (N.ltb_spec i 64) as [I|I].
    + rewrite testbit_wshl. destruct (N.ltb_spec i 64), (N.ltb_spec i 128), (N.leb_spec n i), (N.ltb_spec (i - n) 64); try lia; cbn; auto.
    + rewrite N.lor_spec, testbit_wshl, testbit_wshr by auto.
      destruct (N.ltb_spec (i - 64) 64), (N.ltb_spec i 128); try lia; cbn [andb].
      * destruct (N.leb_spec n (i - 64)).
        -- rewrite (testbit_high 64 (low a)) by (auto; lia). rewrite orb_false_r.
           destruct (N.leb_spec n i), (N.ltb_spec (i - n) 64); try lia. cbn. f_equal. lia.
        -- destruct (N.leb_spec n i), (N.ltb_spec (i - n) 64); try lia. cbn. f_equal. lia.
      * rewrite (testbit_high 64 (low a)) by (auto; lia). reflexivity.
Qed.
Lemma u_shr_num a n : wfu a -> wfu (u_shr a n) /\ num (u_shr a n) = wshr 128 (num a) n.
Proof.
  intros Ha. pose proof Ha as [Hh Hl].
  assert (H : wfu (u_shr a n)).
  { unfold u_shr. destruct (128 <=? n); [split; reflexivity|]. destruct (64 <=? n); split; cbn [high low];
      try reflexivity; auto using wshr_lt. apply lor_lt; auto using wshl_lt, wshr_lt. }
  split; auto. apply bits_eq. intros i. rewrite testbit_wshr, num_bits by auto using num_lt. unfold u_shr in *.
  rewrite num_bits by auto.
  destruct (N.leb_spec 128 n) as [L|L].
  { cbn [high low]. rewrite !N.bits_0. destruct (N.ltb_spec (i + n) 64); [lia|].
    rewrite (testbit_high 64 (high a)) by (auto; lia). destruct (i <? 64); reflexivity. }
  destruct (N.leb_spec 64 n) as [M|M]; cbn [high low].
  - destruct (N.ltb_spec (i + n) 64); [lia|]. rewrite testbit_wshr, N.bits_0 by auto.
    destruct (N.ltb_spec i 64); [f_equal; lia|]. rewrite (testbit_high 64 (high a)) by (auto; lia). reflexivity.
  - destruct (N.ltb_spec i 64) as [I|I].
    + rewrite N.lor_spec, testbit_wshl, testbit_wshr by auto.
      destruct (N.ltb_spec i 64), (N.leb_spec (64 - n) i), (N.ltb_spec (i + n) 64); try (exfalso; lia); cbn [andb].
      * rewrite (testbit_high 64 (low a)) by (auto; lia). cbn. f_equal. lia.
      * apply orb_false_r.
    + rewrite testbit_wshr by auto. destruct (N.ltb_spec (i + n) 64); [lia|]. f_equal. lia.
Qed.
Lemma wadd_lt W a b : wadd W a b < 2 ^ W.
Proof. apply N.mod_lt. apply N.pow_nonzero. lia. Qed.
Lemma wsub_lt W a b : wsub W a b < 2 ^ W.
Proof. apply N.mod_lt. apply N.pow_nonzero. lia. Qed.
Lemma wadd_cases W a b : a < 2 ^ W -> b < 2 ^ W ->
  (a + b < 2 ^ W /\ wadd W a b = a + b) \/ (2 ^ W <= a + b /\ wadd W a b = a + b - 2 ^ W).
Proof.
  intros Ha Hb. unfold wadd. destruct (N.lt_ge_cases (a + b) (2 ^ W)) as [L|L]; [left|right]; split; auto.
  - apply N.mod_small; auto.
  - replace (a + b) with (a + b - 2 ^ W + 1 * 2 ^ W) at 1 by lia. rewrite N.mod_add by lia. apply N.mod_small. lia.
Qed.
Lemma wsub_cases W a b : a < 2 ^ W -> b < 2 ^ W ->
  (b <= a /\ wsub W a b = a - b) \/ (a < b /\ wsub W a b = 2 ^ W + a - b).
Proof.
  intros Ha Hb. unfold wsub. rewrite (N.mod_small b) by auto. destruct (N.le_gt_cases b a) as [L|L]; [left|right]; split; auto.
  - replace (a + (2 ^ W - b)) with (a - b + 1 * 2 ^ W) by lia. rewrite N.mod_add by lia. apply N.mod_small. lia.
  - rewrite N.mod_small by lia. lia.
Qed.
Lemma u_add_num a x : wfu a -> x < 2 ^ 64 -> wfu (u_add a x) /\ num (u_add a x) = wadd 128 (num a) x.
Proof.
  intros [Hh Hl] Hx. split.
  { split; cbn; [destruct (_ <? _); auto using wadd_lt|apply wadd_lt]. }
  assert (Hx' : x < 2 ^ 128) by (change (2 ^ 128) with (2 ^ 64 * 2 ^ 64); lia).
  pose proof (num_lt a (conj Hh Hl)) as Hn. unfold u_add, num in *. cbn [high low].
  change (2 ^ 128) with (2 ^ 64 * 2 ^ 64) in *.
  destruct (wadd_cases 64 (low a) x Hl Hx) as [[C E]|[C E]]; rewrite E.
  - destruct (N.ltb_spec (low a + x) (low a)); [lia|].
    destruct (wadd_cases 128 _ _ Hn Hx') as [[D E']|[D E']]; rewrite E'; change (2 ^ 128) with (2 ^ 64 * 2 ^ 64) in *; nia.
  - destruct (N.ltb_spec (low a + x - 2 ^ 64) (low a)); [|lia].
    destruct (wadd_cases 64 (high a) 1 Hh ltac:(reflexivity)) as [[F E1]|[F E1]]; rewrite E1;
    destruct (wadd_cases 128 _ _ Hn Hx') as [[D E']|[D E']]; rewrite E'; change (2 ^ 128) with (2 ^ 64 * 2 ^ 64) in *; nia.
Qed.
Lemma u_sub_num a x : wfu a -> x < 2 ^ 64 -> wfu (u_sub a x) /\ num (u_sub a x) = wsub 128 (num a) x.
Proof.
  intros [Hh Hl] Hx. split.
  { split; cbn; [destruct (_ <? _); auto using wsub_lt|apply wsub_lt]. }
  assert (Hx' : x < 2 ^ 128) by (change (2 ^ 128) with (2 ^ 64 * 2 ^ 64); lia).
  pose proof (num_lt a (conj Hh Hl)) as Hn. unfold u_sub, num in *. cbn [high low].
  change (2 ^ 128) with (2 ^ 64 * 2 ^ 64) in *.
  destruct (wsub_cases 64 (low a) x Hl Hx) as [[C E]|[C E]]; rewrite E.
  - destruct (N.ltb_spec (low a) (low a - x)); [lia|].
    destruct (wsub_cases 128 _ _ Hn Hx') as [[D E']|[D E']]; rewrite E'; change (2 ^ 128) with (2 ^ 64 * 2 ^ 64) in *; nia.
  - destruct (N.ltb_spec (low a) (2 ^ 64 + low a - x)); [|lia].
    destruct (wsub_cases 64 (high a) 1 Hh ltac:(reflexivity)) as [[F E1]|[F E1]]; rewrite E1;
    destruct (wsub_cases 128 _ _ Hn Hx') as [[D E']|[D E']]; rewrite E'; change (2 ^ 128) with (2 ^ 64 * 2 ^ 64) in *; nia.
Qed.
Lemma u_eqb_num a b : wfu a -> wfu b -> u_eqb a b = (num a =? num b).
Proof.
  intros Ha Hb. apply Bool.eq_iff_eq_true. unfold u_eqb. rewrite andb_true_iff, !N.eqb_eq. split.
  - intros [E1 E2]. unfold num. congruence.
  - intros E. apply num_inj in E; auto. subst; auto.
Qed.
Lemma u_compare_num a b : wfu a -> wfu b ->
  u_compare a b = match N.compare (num a) (num b) with Eq => 0%Z | Lt => (-1)%Z | Gt => 1%Z end.
Proof.
  intros Ha Hb. unfold u_compare. rewrite u_eqb_num by auto. destruct Ha, Hb. unfold num.
  destruct (N.eqb_spec (num a) (num b)) as [E|E]; unfold num in E.
  - rewrite E, N.eqb_refl, N.compare_refl. reflexivity.
  - destruct (N.eqb_spec (high a * 2 ^ 64 + low a) (high b * 2 ^ 64 + low b)); [congruence|].
    destruct (N.compare_spec (high a * 2 ^ 64 + low a) (high b * 2 ^ 64 + low b)); [congruence| |].
    + destruct (N.ltb_spec (high a) (high b)), (N.eqb_spec (high a) (high b)), (N.ltb_spec (low a) (low b)); cbn; try reflexivity; nia.
    + destruct (N.ltb_spec (high a) (high b)), (N.eqb_spec (high a) (high b)), (N.ltb_spec (low a) (low b)); cbn; try reflexivity; nia.
Qed.
Lemma u_lt_num a b : wfu a -> wfu b -> u_lt a b = (num a <? num b).
Proof.
  intros Ha Hb. unfold u_lt. rewrite u_compare_num by auto. unfold N.ltb. destruct (num a ?= num b); reflexivity.
Qed.
(* bit strings of the halves *)
Lemma full_num u : wfu u -> full 128 (num u) = full 64 (high u) ++ full 64 (low u).
Proof.
  intros [Hh Hl]. apply val_inj; [rewrite app_length, !full_length; reflexivity|].
  rewrite val_app, !val_full by (auto; apply num_lt; split; auto). rewrite nlen_full'. reflexivity.
Qed.
Lemma cnt_app b l m : cnt b (l ++ m) = cnt b l + cnt b m.
Proof. induction l as [|x l IH]; cbn [cnt app]; [reflexivity|]. rewrite IH. lia. Qed.
Lemma lead_app b l m : lead b (l ++ m) = if lead b l =? nlen l then nlen l + lead b m else lead b l.
Proof.
  induction l as [|x l IH]; cbn [lead app]; [cbn; reflexivity|]. rewrite nlen_cons, IH.
  destruct (Bool.eqb x b).
  - destruct (N.eqb_spec (lead b l) (nlen l)), (N.eqb_spec (1 + lead b l) (nlen l + 1)); lia.
  - destruct (N.eqb_spec 0 (nlen l + 1)); [lia|reflexivity].
Qed.
Lemma u_onesCount_num u : wfu u -> u_onesCount u = popcount (num u).
Proof.
  intros H. rewrite (popcount_cnt 128) by (apply num_lt; auto). rewrite full_num, cnt_app by auto.
  destruct H. unfold u_onesCount. rewrite !(popcount_cnt 64) by auto. reflexivity.
Qed.
Lemma u_leadingZeros_num u : wfu u -> u_leadingZeros u = clz 128 (num u).
Proof.
  intros H. rewrite clz_lead by (apply num_lt; auto). rewrite full_num by auto. rewrite lead_app, nlen_full'.
  destruct H. unfold u_leadingZeros. rewrite !clz_lead by auto.
  destruct (N.eqb_spec (lead false (full 64 (high u))) 64) as [->|]; reflexivity.
Qed.
Lemma u_max_num : wfu u_max /\ num u_max = N.ones 128.
Proof. split; [split; reflexivity|reflexivity]. Qed.
Lemma u_top_num : wfu u_top /\ num u_top = 2 ^ 127.
Proof. split; [split; reflexivity|reflexivity]. Qed.
