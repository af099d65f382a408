(* NetProof.v - bytes, masks and net conversions. *)
From Verif Require Export Net V6Proof ValSpec.
From Coq Require Import Arith ZifyBool ZifyNat ZifyN.

Lemma fold_digits B l acc : fold_left (fun a d => a * B + d) l acc = acc * B ^ nlen l + digits B l.
Proof.
  unfold digits. revert acc. induction l as [|x l IH]; intros acc; cbn [fold_left]; [cbn; lia|].
  rewrite IH, (IH (0 * B + x)), nlen_cons, N.add_1_r, N.pow_succ_r'. lia.
Qed.
Lemma digits_cons B x l : digits B (x :: l) = x * B ^ nlen l + digits B l.
Proof. unfold digits at 1. cbn [fold_left]. rewrite fold_digits. lia. Qed.
Lemma digits_lt B l : 0 < B -> Forall (fun x => x < B) l -> digits B l < B ^ nlen l.
Proof.
  intros HB. induction l as [|x l IH]; intros H; [cbn; lia|]. inversion H; subst. rewrite digits_cons, nlen_cons, N.add_1_r, N.pow_succ_r'.
  specialize (IH H3). nia.
Qed.
Lemma digits_inj B l m : Forall (fun x => x < B) l -> Forall (fun x => x < B) m -> length l = length m -> digits B l = digits B m -> l = m.
Proof.
  revert m. induction l as [|x l IH]; intros [|y m] Hl Hm E D; cbn in E; try discriminate; [reflexivity|].
  inversion Hl; inversion Hm; subst. rewrite !digits_cons in D.
  pose proof (digits_lt B l ltac:(lia) H2). pose proof (digits_lt B m ltac:(lia) H6).
  assert (NL : nlen l = nlen m) by (unfold nlen; congruence). rewrite NL in *.
  assert (x = y) by nia. subst. f_equal. apply IH; auto; lia.
Qed.
Lemma pow256 n : 256 ^ n = 2 ^ (8 * n).
Proof. change 256 with (2 ^ 8). rewrite <- N.pow_mul_r. reflexivity. Qed.
Lemma be_cons x l : be (x :: l) = x * 2 ^ (8 * nlen l) + be l.
Proof. unfold be. rewrite digits_cons, pow256. reflexivity. Qed.
Lemma be_lt l : Forall byte l -> be l < 2 ^ (8 * nlen l).
Proof. intros H. rewrite <- pow256. apply digits_lt; [lia|exact H]. Qed.
Lemma be_inj l m : Forall byte l -> Forall byte m -> length l = length m -> be l = be m -> l = m.
Proof. apply digits_inj. Qed.
Lemma be_app l m : be (l ++ m) = be l * 2 ^ (8 * nlen m) + be m.
Proof.
  induction l as [|x l IH]; [change (be []) with 0; cbn [app]; lia|]. cbn [app]. rewrite !be_cons, IH. unfold nlen. rewrite app_length.
  replace (8 * N.of_nat (length l + length m)) with (8 * N.of_nat (length l) + 8 * N.of_nat (length m)) by lia.
  rewrite N.pow_add_r. lia.
Qed.

(* ---- shifts and lors assemble digits ---- *)
Lemma wshl_small W x n : n < W -> x < 2 ^ (W - n) -> wshl W x n = x * 2 ^ n.
Proof.
  intros Hn Hx. unfold wshl. destruct (N.leb_spec W n); [lia|]. rewrite N.shiftl_mul_pow2. apply N.mod_small.
  replace W with (W - n + n) at 1 by lia. rewrite N.pow_add_r. apply N.mul_lt_mono_pos_r; [apply pow2_pos|exact Hx].
Qed.
Lemma lor_digit k d x y : y < 2 ^ d -> N.lor (x * 2 ^ (k + d)) (y * 2 ^ k) = (x * 2 ^ d + y) * 2 ^ k.
Proof.
  intros H. rewrite N.pow_add_r. replace (x * (2 ^ k * 2 ^ d)) with (x * 2 ^ d * 2 ^ k) by lia.
  rewrite <- !N.shiftl_mul_pow2, <- N.shiftl_lor, !N.shiftl_mul_pow2, lor_low by auto. reflexivity.
Qed.
Ltac expand := repeat match goal with H : Forall _ (_ :: _) |- _ =>
  let H' := fresh in pose proof (Forall_inv H) as H'; apply Forall_inv_tail in H; cbn beta in H' end.
Lemma wshl64_byte x n : n <= 56 -> byte x -> wshl 64 x n = x * 2 ^ n.
Proof. intros Hn Hx. apply wshl_small; [lia|]. unfold byte in Hx. assert (2 ^ 8 <= 2 ^ (64 - n)) by (apply N.pow_le_mono_r; lia). change (2 ^ 8) with 256 in *. lia. Qed.
Lemma wshl32_byte x n : n <= 24 -> byte x -> wshl 32 x n = x * 2 ^ n.
Proof. intros Hn Hx. apply wshl_small; [lia|]. unfold byte in Hx. assert (2 ^ 8 <= 2 ^ (32 - n)) by (apply N.pow_le_mono_r; lia). change (2 ^ 8) with 256 in *. lia. Qed.
Lemma wshl64_group x n : n <= 48 -> group x -> wshl 64 x n = x * 2 ^ n.
Proof. intros Hn Hx. apply wshl_small; [lia|]. unfold group in Hx. assert (2 ^ 16 <= 2 ^ (64 - n)) by (apply N.pow_le_mono_r; lia). change (2 ^ 16) with 65536 in *. lia. Qed.

Lemma AddressFromBytes4_be a b c d : byte a -> byte b -> byte c -> byte d -> AddressFromBytes4 a b c d = be [a; b; c; d].
Proof.
  intros Ha Hb Hc Hd. unfold AddressFromBytes4. rewrite !wshl32_byte by (auto; lia).
  rewrite (lor_digit 16 8) by exact Hb. rewrite (lor_digit 8 8) by exact Hc.
  rewrite <- (N.mul_1_r d) at 1. change 1 with (2 ^ 0). rewrite (lor_digit 0 8) by exact Hd.
  unfold be, digits. cbn [fold_left]. change (2 ^ 8) with 256. change (2 ^ 0) with 1. lia.
Qed.
Lemma word8_be s : length s = 8%nat -> Forall byte s -> word8 s = be s.
Proof.
  intros L H. do 9 (destruct s as [|? s]; [discriminate L || idtac|]); try discriminate L. expand.
  unfold word8. rewrite !wshl64_byte by (auto; lia).
  rewrite (lor_digit 48 8), (lor_digit 40 8), (lor_digit 32 8), (lor_digit 24 8), (lor_digit 16 8), (lor_digit 8 8) by assumption.
  rewrite <- (N.mul_1_r n6) at 1. change 1 with (2 ^ 0). rewrite (lor_digit 0 8) by assumption.
  unfold be, digits. cbn [fold_left]. change (2 ^ 8) with 256. change (2 ^ 0) with 1. lia.
Qed.
Lemma word4_be a b c d : group a -> group b -> group c -> group d -> word4 a b c d = be16 [a; b; c; d].
Proof.
  intros Ha Hb Hc Hd. unfold word4. rewrite !wshl64_group by (auto; lia).
  rewrite (lor_digit 32 16), (lor_digit 16 16) by assumption.
  rewrite <- (N.mul_1_r d) at 1. change 1 with (2 ^ 0). rewrite (lor_digit 0 16) by assumption.
  unfold be16, digits. cbn [fold_left]. change (2 ^ 16) with 65536. change (2 ^ 0) with 1. lia.
Qed.
Lemma byte_lane x k : N.shiftr (N.land x (255 * 2 ^ k)) k mod 256 = x / 2 ^ k mod 256.
Proof.
  rewrite N.shiftr_land.
  replace (N.shiftr (255 * 2 ^ k) k) with (N.ones 8).
  - rewrite N.land_ones, N.shiftr_div_pow2. change (2 ^ 8) with 256. apply N.mod_mod. lia.
  - rewrite N.shiftr_div_pow2, N.div_mul by (apply N.pow_nonzero; lia). reflexivity.
Qed.
Lemma be_toBytes4 ui : ui < 2 ^ 32 -> Forall byte (ToNetIP4 ui) /\ length (ToNetIP4 ui) = 4%nat /\ be (ToNetIP4 ui) = ui.
Proof.
  intros H. unfold ToNetIP4, toBytes4.
  change 0xff000000 with (255 * 2 ^ 24). change 0xff0000 with (255 * 2 ^ 16). change 0xff00 with (255 * 2 ^ 8).
  rewrite !byte_lane. replace (N.land ui 255 mod 256) with (ui / 2 ^ 0 mod 256).
  2:{ rewrite <- (byte_lane ui 0). rewrite N.shiftr_0_r. change (255 * 2 ^ 0) with 255. reflexivity. }
  split; [|split; [reflexivity|]].
  - repeat constructor; apply N.mod_lt; lia.
  - unfold be, digits. cbn [fold_left]. change (2 ^ 24) with (256 * 256 * 256). change (2 ^ 16) with (256 * 256).
    change (2 ^ 8) with 256. change (2 ^ 0) with 1. change (2 ^ 32) with (256 * 256 * 256 * 256) in H.
    rewrite <- !N.div_div, N.div_1_r by lia.
    pose proof (N.div_mod ui 256 ltac:(lia)). set (u1 := ui / 256) in *.
    pose proof (N.div_mod u1 256 ltac:(lia)). set (u2 := u1 / 256) in *.
    pose proof (N.div_mod u2 256 ltac:(lia)). set (u3 := u2 / 256) in *.
    rewrite (N.mod_small u3) by lia. lia.
Qed.
Lemma bytes8_lane w k : w < 2 ^ 64 -> k < 64 -> N.land 255 (wshr 64 w k) mod 256 = w / 2 ^ k mod 256.
Proof.
  intros H Hk. unfold wshr. destruct (N.leb_spec 64 k); [lia|]. change 255 with (N.ones 8). rewrite N.land_comm, N.land_ones, N.shiftr_div_pow2.
  change (2 ^ 8) with 256. apply N.mod_mod. lia.
Qed.
Lemma be_bytes8 w : w < 2 ^ 64 -> Forall byte (bytes8 w) /\ length (bytes8 w) = 8%nat /\ be (bytes8 w) = w.
Proof.
  intros H. unfold bytes8. cbn [map]. rewrite !bytes8_lane by (auto; lia).
  split; [repeat constructor; apply N.mod_lt; lia|split; [reflexivity|]].
  unfold be, digits. cbn [fold_left].
  change (2 ^ 56) with (256 * 256 * 256 * 256 * 256 * 256 * 256). change (2 ^ 48) with (256 * 256 * 256 * 256 * 256 * 256).
  change (2 ^ 40) with (256 * 256 * 256 * 256 * 256). change (2 ^ 32) with (256 * 256 * 256 * 256). change (2 ^ 24) with (256 * 256 * 256).
  change (2 ^ 16) with (256 * 256). change (2 ^ 8) with 256. change (2 ^ 0) with 1. change (2 ^ 64) with (256 * 256 * 256 * 256 * 256 * 256 * 256 * 256) in H.
  rewrite <- !N.div_div, N.div_1_r by lia.
  pose proof (N.div_mod w 256 ltac:(lia)). set (u1 := w / 256) in *.
  pose proof (N.div_mod u1 256 ltac:(lia)). set (u2 := u1 / 256) in *.
  pose proof (N.div_mod u2 256 ltac:(lia)). set (u3 := u2 / 256) in *.
  pose proof (N.div_mod u3 256 ltac:(lia)). set (u4 := u3 / 256) in *.
  pose proof (N.div_mod u4 256 ltac:(lia)). set (u5 := u4 / 256) in *.
  pose proof (N.div_mod u5 256 ltac:(lia)). set (u6 := u5 / 256) in *.
  pose proof (N.div_mod u6 256 ltac:(lia)). set (u7 := u6 / 256) in *.
  rewrite (N.mod_small u7) by lia. lia.
Qed.
Lemma be_toBytes6 u : wfu u -> Forall byte (ToNetIP6 u) /\ length (ToNetIP6 u) = 16%nat /\ be (ToNetIP6 u) = num u.
Proof.
  intros [Hh Hl]. destruct (be_bytes8 _ Hh) as (A1 & A2 & A3). destruct (be_bytes8 _ Hl) as (B1 & B2 & B3).
  unfold ToNetIP6, u_toBytes. split; [apply Forall_app; auto|split; [rewrite app_length, A2, B2; reflexivity|]].
  rewrite be_app, A3, B3. unfold nlen. rewrite B2. reflexivity.
Qed.
Lemma fromBytes6_be bs : length bs = 16%nat -> Forall byte bs ->
  wfu (mkU (word8 (firstn 8 bs)) (word8 (skipn 8 bs))) /\ num (mkU (word8 (firstn 8 bs)) (word8 (skipn 8 bs))) = be bs.
Proof.
  intros L H. rewrite <- (firstn_skipn 8 bs) in H. apply Forall_app in H. destruct H as [H1 H2].
  assert (L1 : length (firstn 8 bs) = 8%nat) by (rewrite firstn_length; lia).
  assert (L2 : length (skipn 8 bs) = 8%nat) by (rewrite skipn_length; lia).
  rewrite !word8_be by auto. pose proof (be_lt _ H1) as B1. pose proof (be_lt _ H2) as B2. unfold nlen in *. rewrite L1 in B1. rewrite L2 in B2.
  split; [split; assumption|]. unfold num; cbn [high low]. rewrite <- (firstn_skipn 8 bs) at 3. rewrite be_app. unfold nlen. rewrite L2. reflexivity.
Qed.
Lemma group_num a b c d e f g h : Forall group [a; b; c; d; e; f; g; h] ->
  wfu (AddressFromUint16 a b c d e f g h) /\ num (AddressFromUint16 a b c d e f g h) = be16 [a; b; c; d; e; f; g; h].
Proof.
  intros H. expand. unfold AddressFromUint16, num. cbn [high low]. rewrite !word4_be by auto.
  unfold wfu; cbn [high low]. unfold be16, digits. cbn [fold_left]. unfold group in *. change (2 ^ 64) with (65536 * 65536 * 65536 * 65536).
  split; [lia|lia].
Qed.

(* ---- net.IPMask ---- *)
Lemma byte_ones_spec v k : byte v -> byte_ones 8 v = Some k <-> k <= 8 /\ v = 256 - 2 ^ (8 - k).
Proof.
  intros H.
  set (chk := fun v => match byte_ones 8 v with
    | Some k => (k <=? 8) && (v =? 256 - 2 ^ (8 - k))
    | None => forallb (fun k => negb (v =? 256 - 2 ^ (8 - k))) [0; 1; 2; 3; 4; 5; 6; 7; 8] end).
  assert (C : forallb chk (map N.of_nat (seq 0 256)) = true) by (vm_compute; reflexivity).
  rewrite forallb_forall in C. specialize (C v). unfold chk in C. destruct (byte_ones 8 v) as [j|].
  - specialize (C ltac:(apply in_map_iff; exists (N.to_nat v); split; [lia|apply in_seq; unfold byte in H; lia])).
    apply andb_true_iff in C. destruct C as [C1 C2]. apply N.leb_le in C1. apply N.eqb_eq in C2. split.
    + intros [= <-]. auto.
    + intros [K E]. f_equal. rewrite C2 in E. assert (P : 2 ^ (8 - j) = 2 ^ (8 - k)).
      { assert (2 ^ (8 - j) <= 2 ^ 8) by (apply N.pow_le_mono_r; lia). assert (2 ^ (8 - k) <= 2 ^ 8) by (apply N.pow_le_mono_r; lia). change (2 ^ 8) with 256 in *. lia. }
      apply N.pow_inj_r in P; lia.
  - specialize (C ltac:(apply in_map_iff; exists (N.to_nat v); split; [lia|apply in_seq; unfold byte in H; lia])).
    split; [discriminate|]. intros [K E]. exfalso. cbn [forallb] in C. rewrite !andb_true_iff in C.
    assert (k = 0 \/ k = 1 \/ k = 2 \/ k = 3 \/ k = 4 \/ k = 5 \/ k = 6 \/ k = 7 \/ k = 8) as D by lia.
    rewrite !negb_true_iff in C.
    destruct C as (C0 & C1 & C2 & C3 & C4 & C5 & C6 & C7 & C8 & _).
    apply N.eqb_neq in C0, C1, C2, C3, C4, C5, C6, C7, C8.
    destruct D as [D|[D|[D|[D|[D|[D|[D|[D|D]]]]]]]]; subst k; auto.
Qed.
Lemma be_zero l : Forall byte l -> forallb (N.eqb 0) l = true <-> be l = 0.
Proof.
  induction l as [|x l IH]; intros H; [split; reflexivity|]. inversion H; subst. cbn [forallb]. rewrite andb_true_iff, IH, N.eqb_eq, be_cons by auto.
  pose proof (pow2_pos (8 * nlen l)). nia.
Qed.
Lemma simpleMaskLength_spec m n : Forall byte m ->
  simpleMaskLength m = Some n <-> n <= 8 * nlen m /\ be m = 2 ^ (8 * nlen m) - 2 ^ (8 * nlen m - n).
Proof.
  revert n. induction m as [|v m IH]; intros n H.
  - cbn. split; [intros [= <-]; split; [lia|reflexivity]|]. intros [L _]. f_equal. lia.
  - inversion H; subst. cbn [simpleMaskLength]. rewrite be_cons, nlen_cons. replace (8 * (nlen m + 1)) with (8 * nlen m + 8) by lia.
    set (L := 8 * nlen m) in *. pose proof (be_lt _ H3) as B. fold L in B. rewrite N.pow_add_r. change (2 ^ 8) with 256. set (X := 2 ^ L) in *.
    assert (X0 : 0 < X) by apply pow2_pos.
    destruct (N.eqb_spec v 255) as [->|V].
    + split.
      * intros E. destruct (simpleMaskLength m) as [j|]; [|discriminate]. cbn in E. injection E as <-.
        destruct (proj1 (IH j H3) eq_refl) as [J1 J2]. split; [lia|]. replace (L + 8 - (8 + j)) with (L - j) by lia. rewrite J2.
        assert (2 ^ (L - j) <= X) by (apply N.pow_le_mono_r; lia). lia.
      * intros [L1 E]. assert (8 <= n).
        { destruct (N.le_gt_cases 8 n); auto. exfalso. assert (2 ^ (L + 1) <= 2 ^ (L + 8 - n)) by (apply N.pow_le_mono_r; lia).
          rewrite N.pow_add_r in H1. change (2 ^ 1) with 2 in H1. fold X in H1. lia. }
        replace (L + 8 - n) with (L - (n - 8)) in E by lia.
        assert (2 ^ (L - (n - 8)) <= X) by (apply N.pow_le_mono_r; lia).
        assert (S' : simpleMaskLength m = Some (n - 8)) by (apply IH; auto; split; lia). rewrite S'. cbn. f_equal. lia.
    + split.
      * intros E. destruct (byte_ones 8 v) as [k|] eqn:K; [|discriminate]. apply byte_ones_spec in K; auto. destruct K as [K1 K2].
        destruct (forallb (N.eqb 0) m) eqn:Z; [|discriminate]. injection E as <-. apply be_zero in Z; auto. rewrite Z.
        assert (k <> 8) by (intros ->; apply V; subst v; reflexivity). split; [lia|].
        replace (L + 8 - k) with (L + (8 - k)) by lia. rewrite N.pow_add_r. fold X. subst v.
        assert (2 ^ (8 - k) <= 2 ^ 8) by (apply N.pow_le_mono_r; lia). change (2 ^ 8) with 256 in *. nia.
      * intros [L1 E]. assert (n < 8).
        { destruct (N.lt_ge_cases n 8); auto. exfalso. assert (2 ^ (L + 8 - n) <= X) by (apply N.pow_le_mono_r; lia). unfold byte in H2. nia. }
        replace (L + 8 - n) with (L + (8 - n)) in E by lia. rewrite N.pow_add_r in E. fold X in E.
        assert (P1 : 2 ^ (8 - n) <= 2 ^ 8) by (apply N.pow_le_mono_r; lia). change (2 ^ 8) with 256 in *.
        assert (v = 256 - 2 ^ (8 - n)) by nia. assert (be m = 0) by nia.
        assert (BO : byte_ones 8 v = Some n) by (apply byte_ones_spec; auto; split; [lia|auto]). rewrite BO.
        apply be_zero in H4; auto. rewrite H4. reflexivity.
Qed.
Lemma cidr_byte n : n < 8 -> wnot 8 (wshr 8 255 n) = 256 - 2 ^ (8 - n).
Proof.
  intros H. assert (n = 0 \/ n = 1 \/ n = 2 \/ n = 3 \/ n = 4 \/ n = 5 \/ n = 6 \/ n = 7) as D by lia.
  destruct D as [D|[D|[D|[D|[D|[D|[D|D]]]]]]]; subst; reflexivity.
Qed.
Lemma cidr_bytes_spec l n : n <= 8 * N.of_nat l ->
  Forall byte (cidr_bytes l n) /\ length (cidr_bytes l n) = l /\ be (cidr_bytes l n) = 2 ^ (8 * N.of_nat l) - 2 ^ (8 * N.of_nat l - n).
Proof.
  revert n. induction l as [|l IH]; intros n H.
  - cbn. split; [constructor|split; [reflexivity|]]. replace (0 - n) with 0 by lia. reflexivity.
  - cbn [cidr_bytes]. replace (8 * N.of_nat (S l)) with (8 * N.of_nat l + 8) in * by lia. set (L := 8 * N.of_nat l) in *.
    assert (X0 := pow2_pos L). rewrite N.pow_add_r. change (2 ^ 8) with 256.
    destruct (N.leb_spec 8 n) as [G|G].
    + destruct (IH (n - 8) ltac:(lia)) as (A & B & C). split; [constructor; [reflexivity|auto]|split; [cbn; congruence|]].
      rewrite be_cons. unfold nlen. rewrite B. fold L. rewrite C. replace (L - (n - 8)) with (L + 8 - n) by lia.
      assert (2 ^ (L + 8 - n) <= 2 ^ L) by (apply N.pow_le_mono_r; lia). lia.
    + destruct (IH 0 ltac:(lia)) as (A & B & C). rewrite cidr_byte by auto.
      assert (P : 0 < 2 ^ (8 - n)) by apply pow2_pos.
      split; [constructor; [unfold byte; lia|auto]|split; [cbn; congruence|]].
      rewrite be_cons. unfold nlen. rewrite B. fold L. rewrite C. rewrite N.sub_0_r, N.sub_diag.
      replace (L + 8 - n) with (L + (8 - n)) by lia. rewrite N.pow_add_r, N.add_0_r, N.mul_sub_distr_r. lia.
Qed.
Lemma otz W n : n <= W -> ones_then_zeros W n = 2 ^ W - 2 ^ (W - n).
Proof.
  intros H. unfold ones_then_zeros. rewrite N.mul_sub_distr_r, <- N.pow_add_r. replace (n + (W - n)) with W by lia. lia.
Qed.
Lemma otz_inj W n m : n <= W -> m <= W -> ones_then_zeros W n = ones_then_zeros W m -> n = m.
Proof.
  intros Hn Hm E. rewrite !otz in E by auto.
  assert (2 ^ (W - n) <= 2 ^ W) by (apply N.pow_le_mono_r; lia). assert (2 ^ (W - m) <= 2 ^ W) by (apply N.pow_le_mono_r; lia).
  assert (P : 2 ^ (W - n) = 2 ^ (W - m)) by lia. apply N.pow_inj_r in P; lia.
Qed.
Lemma mask_Size_spec m ones bits : Forall byte m ->
  mask_Size m = (ones, bits) <->
  (bits = 8 * nlen m /\ ones <= bits /\ be m = ones_then_zeros bits ones) \/
  (bits = 0 /\ ones = 0 /\ forall n, n <= 8 * nlen m -> be m <> ones_then_zeros (8 * nlen m) n).
Proof.
  intros H. unfold mask_Size. fold (nlen m). destruct (simpleMaskLength m) as [k|] eqn:S'.
  - apply simpleMaskLength_spec in S'; auto. destruct S' as [K1 K2]. rewrite <- otz in K2 by auto. split.
    + intros [= <- <-]. left. auto.
    + intros [(-> & L & E)|(-> & -> & E)].
      * f_equal. rewrite K2 in E. apply otz_inj in E; auto.
      * exfalso. apply (E k); auto.
  - assert (NS : forall n, n <= 8 * nlen m -> be m <> ones_then_zeros (8 * nlen m) n).
    { intros n Hn E. rewrite otz in E by auto. assert (simpleMaskLength m = Some n) by (apply simpleMaskLength_spec; auto). congruence. }
    split.
    + intros [= <- <-]. right. auto.
    + intros [(-> & L & E)|(-> & -> & E)]; [exfalso; apply (NS ones); auto|reflexivity].
Qed.
Lemma bits_set_cnt W x : bits_set (N.to_nat W) x = cnt true (full W x).
Proof.
  unfold bits_set, full, top. set (n := N.to_nat W). 
  assert (R : forall k, (k <= n)%nat ->
     cnt true (map (fun i => N.testbit x (W - 1 - N.of_nat i)) (seq (n - k) k)) =
     N.of_nat (length (filter (fun i => N.testbit x (N.of_nat i)) (seq 0 k)))).
  { induction k as [|k IH]; intros Hk; [reflexivity|].
    rewrite (seq_S k 0), filter_app, app_length. cbn [seq map cnt]. replace (S (n - S k)) with (n - k)%nat by lia. rewrite IH by lia.
    replace (W - 1 - N.of_nat (n - S k)) with (N.of_nat (0 + k)) by lia. cbn [filter].
    destruct (N.testbit x (N.of_nat (0 + k))); cbn [Bool.eqb length]; lia. }
  specialize (R n ltac:(lia)). rewrite Nat.sub_diag in R. symmetry. exact R.
Qed.
Lemma clz_leading_zeros W x : x < 2 ^ W -> leading_zeros W x (clz W x).
Proof.
  intros H. unfold leading_zeros, clz. destruct (N.eq_dec x 0) as [->|X].
  - cbn. split; [lia|]. replace (W - (W - 0)) with 0 by lia. split; [cbn; lia|left; lia].
  - rewrite N.size_log2 by auto. assert (N.log2 x < W) by (apply N.log2_lt_pow2; lia). pose proof (N.log2_spec x ltac:(lia)) as [A B].
    replace (W - (W - N.succ (N.log2 x))) with (N.succ (N.log2 x)) by lia. split; [lia|split; [exact B|]].
    right. replace (N.succ (N.log2 x) - 1) with (N.log2 x) by lia. exact A.
Qed.
