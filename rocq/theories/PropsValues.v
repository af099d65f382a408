(* PropsValues.v - C01..C07, C40, C41: addresses, masks, prefixes and ranges. *)
From Verif Require Export NetProof ValSpec.
From Coq Require Import Arith ZifyBool ZifyNat ZifyN.

(* ================= C01: bytes ================= *)
Theorem C01_ipv4_to_bytes : forall ui, ui < 2 ^ 32 ->
  length (ToNetIP4 ui) = 4%nat /\ Forall byte (ToNetIP4 ui) /\ be (ToNetIP4 ui) = ui /\
  fromSlice4 (Some (ToNetIP4 ui)) = Some ui /\ AddressFromNetIP4 (ToNetIP4 ui) = Some ui.
Proof.
  intros ui H. destruct (be_toBytes4 ui H) as (A & B & C). repeat split; auto.
  - unfold ToNetIP4 in *. destruct (toBytes4 ui) as [[[a b] c] d]. unfold fromSlice4. expand. rewrite AddressFromBytes4_be by auto. rewrite C. reflexivity.
  - unfold ToNetIP4 in *. destruct (toBytes4 ui) as [[[a b] c] d]. unfold AddressFromNetIP4. change (To4 [a; b; c; d]) with (Some [a; b; c; d]). unfold fromSlice4. expand. rewrite AddressFromBytes4_be by auto. rewrite C. reflexivity.
Qed.
Theorem C01_ipv4_from_bytes :
  fromSlice4 None = None /\
  forall bs, Forall byte bs ->
    (length bs <> 4%nat -> fromSlice4 (Some bs) = None) /\
    (length bs = 4%nat -> fromSlice4 (Some bs) = Some (be bs) /\ be bs < 2 ^ 32 /\ ToNetIP4 (be bs) = bs) /\
    (forall a b c d, bs = [a; b; c; d] -> AddressFromBytes4 a b c d = be bs).
Proof.
  split; [reflexivity|]. intros bs H. split; [|split].
  - intros L. do 5 (destruct bs as [|? bs]; [reflexivity || (exfalso; apply L; reflexivity)|]). reflexivity.
  - intros L. pose proof (be_lt bs H) as B. unfold nlen in B. rewrite L in B. change (8 * N.of_nat 4) with 32 in B.
    split; [|split; [exact B|]].
    + do 5 (destruct bs as [|? bs]; [discriminate L || idtac|]); try discriminate L. expand. cbn [fromSlice4]. rewrite AddressFromBytes4_be; auto.
    + destruct (be_toBytes4 (be bs) B) as (P & Q & R). apply be_inj; solve [auto | congruence].
  - intros a b c d ->. expand. apply AddressFromBytes4_be; auto.
Qed.
(* AddressFromNetIP takes the 4-byte form and the 16-byte IPv4-mapped form, and nothing else *)
Theorem C01_ipv4_from_netip : forall ip a, Forall byte ip ->
  AddressFromNetIP4 ip = Some a <->
  exists bs, length bs = 4%nat /\ be bs = a /\ (ip = bs \/ ip = repeat 0 10 ++ [255; 255] ++ bs).
Proof.
  intros ip a H. unfold AddressFromNetIP4.
  assert (D : To4 ip = None \/ (exists w x y z, ip = [w; x; y; z]) \/ (exists w x y z, ip = repeat 0 10 ++ [255; 255] ++ [w; x; y; z])).
  { unfold To4. destruct (N.eqb_spec (N.of_nat (length ip)) 4) as [L|L].
    { right. left. do 4 (destruct ip as [|? ip]; [discriminate L|]). destruct ip as [|? ip]; [|cbn [length] in L; lia]. eauto. }
    destruct (N.eqb_spec (N.of_nat (length ip)) 16) as [L'|L']; [|auto].
    do 16 (destruct ip as [|? ip]; [discriminate L'|]). destruct ip as [|? ip]; [|cbn [length] in L'; lia].
    cbn [firstn forallb nth]. destruct (_ && _ && _ && _) eqn:E; [|auto]. right. right. rewrite !andb_true_iff in E.
    exists n11, n12, n13, n14. cbn [repeat app].
    repeat match goal with H : _ /\ _ |- _ => destruct H | H : (_ =? _) = true |- _ => apply N.eqb_eq in H; subst end. reflexivity. }
  assert (F : forall w x y z, Forall byte [w; x; y; z] -> fromSlice4 (Some [w; x; y; z]) = Some (be [w; x; y; z])).
  { intros w x y z B. expand. cbn [fromSlice4]. rewrite AddressFromBytes4_be; auto. }
  split.
  - intros E. destruct D as [D|[(w & x & y & z & ->)|(w & x & y & z & ->)]].
    + rewrite D in E. discriminate.
    + exists [w; x; y; z]. split; [reflexivity|]. split; [|auto]. change (To4 [w; x; y; z]) with (Some [w; x; y; z]) in E. rewrite F in E by auto. congruence.
    + exists [w; x; y; z]. split; [reflexivity|]. split; [|auto].
      change (fromSlice4 (Some [w; x; y; z]) = Some a) in E. cbn [repeat app] in H. expand. rewrite F in E by auto. congruence.
  - intros (bs & L & E & [->| ->]).
    + do 5 (destruct bs as [|? bs]; [discriminate L || idtac|]); try discriminate L. change (To4 [n; n0; n1; n2]) with (Some [n; n0; n1; n2]). rewrite F by auto. congruence.
    + do 5 (destruct bs as [|? bs]; [discriminate L || idtac|]); try discriminate L.
      change (fromSlice4 (Some [n; n0; n1; n2]) = Some a). cbn [repeat app] in H. expand. rewrite F by auto. congruence.
Qed.
Theorem C01_ipv6_to_bytes : forall u, wfu u ->
  length (ToNetIP6 u) = 16%nat /\ Forall byte (ToNetIP6 u) /\ be (ToNetIP6 u) = num u /\
  fromSlice6 (Some (ToNetIP6 u)) = Some u.
Proof.
  intros u H. destruct (be_toBytes6 u H) as (A & B & C). repeat split; auto.
  unfold fromSlice6, uint128FromBytes. rewrite B. cbn [N.of_nat]. cbn -[ToNetIP6 word8 firstn skipn].
  destruct (fromBytes6_be _ B A) as [P Q]. f_equal. apply num_inj; auto. rewrite Q. exact C.
Qed.
Theorem C01_ipv6_from_bytes :
  fromSlice6 None = None /\
  forall bs, Forall byte bs ->
    (length bs <> 16%nat -> fromSlice6 (Some bs) = None) /\
    (length bs = 16%nat -> exists u, fromSlice6 (Some bs) = Some u /\ wfu u /\ num u = be bs /\ ToNetIP6 u = bs).
Proof.
  split; [reflexivity|]. intros bs H. split.
  - intros L. unfold fromSlice6. destruct (N.eqb_spec (N.of_nat (length bs)) 16); [lia|reflexivity].
  - intros L. destruct (fromBytes6_be bs L H) as [P Q]. eexists. split; [|split; [exact P|split; [exact Q|]]].
    + unfold fromSlice6, uint128FromBytes. rewrite L. reflexivity.
    + destruct (be_toBytes6 _ P) as (X & Y & Z). apply be_inj; auto; congruence.
Qed.
(* the word constructors: two 64-bit words, eight 16-bit groups *)
Theorem C01_ipv6_words :
  (forall h l, h < 2 ^ 64 -> l < 2 ^ 64 -> num (AddressFromUint64 h l) = h * 2 ^ 64 + l /\ u_uint64 (AddressFromUint64 h l) = (h, l)) /\
  (forall u, wfu u -> AddressFromUint64 (fst (u_uint64 u)) (snd (u_uint64 u)) = u) /\
  (forall a b c d e f g h, Forall group [a; b; c; d; e; f; g; h] ->
     wfu (AddressFromUint16 a b c d e f g h) /\ num (AddressFromUint16 a b c d e f g h) = be16 [a; b; c; d; e; f; g; h]).
Proof.
  split; [|split].
  - intros h l Hh Hl. split; reflexivity.
  - intros [h l] _. reflexivity.
  - intros. apply group_num. auto.
Qed.
Example C01_ex : ToNetIP4 0xC0A80105 = [192; 168; 1; 5] /\ fromSlice4 (Some [192; 168; 1; 5]) = Some 0xC0A80105 /\
  AddressFromNetIP4 [0;0;0;0;0;0;0;0;0;0;255;255;192;168;1;5] = Some 0xC0A80105 /\
  AddressFromNetIP4 [0;0;0;0;0;0;0;0;0;0;255;254;192;168;1;5] = None /\
  ToNetIP6 (AddressFromUint16 0x2001 0xdb8 0 0 0 0 0 0x12) = [32;1;13;184;0;0;0;0;0;0;0;0;0;0;0;18].
Proof. repeat split. Qed.

(* ================= C02: uint128 ================= *)
Theorem C02_uint128_exact : forall a b : u128, wfu a -> wfu b ->
  num (u_and a b) = N.land (num a) (num b) /\
  num (u_or a b) = N.lor (num a) (num b) /\
  num (u_xor a b) = N.lxor (num a) (num b) /\
  num (u_not a) = 2 ^ 128 - 1 - num a /\
  (forall n, num (u_shl a n) = (num a * 2 ^ n) mod 2 ^ 128) /\
  (forall n, num (u_shr a n) = num a / 2 ^ n) /\
  (forall x, x < 2 ^ 64 -> num (u_add a x) = (num a + x) mod 2 ^ 128) /\
  (forall x, x < 2 ^ 64 -> num (u_sub a x) = (num a + (2 ^ 128 - x)) mod 2 ^ 128) /\
  u_compare a b = (if num a =? num b then 0%Z else if num a <? num b then (-1)%Z else 1%Z) /\
  (u_eqb a b = true <-> num a = num b) /\
  leading_zeros 128 (num a) (u_leadingZeros a) /\
  u_onesCount a = bits_set 128 (num a).
Proof.
  intros a b Ha Hb. pose proof (num_lt a Ha) as La.
  repeat match goal with |- _ /\ _ => split end.
  - apply u_and_num; auto.
  - apply u_or_num; auto.
  - apply u_xor_num; auto.
  - destruct (u_not_num a Ha) as [_ ->]. unfold wnot. rewrite N.lxor_comm.
    assert (E : N.lxor (N.ones 128) (num a) = N.ones 128 - num a).
    { rewrite (N.lxor_comm). change (N.lxor (num a) (N.ones 128)) with (N.lnot (num a) 128).
      rewrite N.lnot_sub_low; [reflexivity|]. destruct (N.eq_dec (num a) 0) as [->|]; [reflexivity|apply N.log2_lt_pow2; lia]. }
    rewrite E. reflexivity.
  - intros n. destruct (u_shl_num a n Ha) as [_ ->]. unfold wshl. destruct (N.leb_spec 128 n).
    + replace n with (n - 128 + 128) by lia. rewrite N.pow_add_r, N.mul_assoc, N.mod_mul by discriminate. reflexivity.
    + rewrite N.shiftl_mul_pow2. reflexivity.
  - intros n. destruct (u_shr_num a n Ha) as [_ ->]. unfold wshr. destruct (N.leb_spec 128 n).
    + symmetry. apply N.div_small. eapply N.lt_le_trans; [exact La|]. apply N.pow_le_mono_r; lia.
    + apply N.shiftr_div_pow2.
  - intros x Hx. apply u_add_num; auto.
  - intros x Hx. destruct (u_sub_num a x Ha Hx) as [_ ->]. unfold wsub. rewrite (N.mod_small x); [reflexivity|].
    eapply N.lt_trans; [exact Hx|reflexivity].
  - rewrite u_compare_num by auto. destruct (N.compare_spec (num a) (num b)), (N.eqb_spec (num a) (num b)), (N.ltb_spec (num a) (num b)); try lia; reflexivity.
  - rewrite u_eqb_num by auto. apply N.eqb_eq.
  - rewrite u_leadingZeros_num by auto. apply clz_leading_zeros. auto.
  - rewrite u_onesCount_num, (popcount_cnt 128) by auto. symmetry. apply (bits_set_cnt 128).
Qed.
Example C02_ex : wfu (mkU 1 (2 ^ 64 - 1)) /\ u_add (mkU 1 (2 ^ 64 - 1)) 1 = mkU 2 0 /\ u_sub (mkU 2 0) 1 = mkU 1 (2 ^ 64 - 1) /\
  u_shl (mkU 0 3) 63 = mkU 1 (2 ^ 63) /\ u_leadingZeros (mkU 0 1) = 127 /\ u_onesCount (mkU 3 5) = 4.
Proof. repeat split. Qed.

(* ================= C03: masks ================= *)
Theorem C03_masks : forall W, ip_width W ->
  (* a word is accepted iff it is a run of ones followed by zeros, and is returned unchanged *)
  (forall x m, x < 2 ^ W -> MaskFromUint W x = Some m <-> m = x /\ exists n, n <= W /\ x = ones_then_zeros W n) /\
  (* a length is accepted iff it is in 0..W *)
  (forall z m, MaskFromLength W z = Some m <-> (0 <= z <= Z.of_N W)%Z /\ m = ones_then_zeros W (Z.to_N z)) /\
  (* the length of a mask is its number of leading ones *)
  (forall n, n <= W -> mask_length W (ones_then_zeros W n) = n).
Proof.
  intros W HW. assert (W0 : 0 < W) by (destruct HW; subst; lia). split; [|split].
  - intros x m Hx. unfold MaskFromUint. pose proof (mask_valid_iff W x Hx) as MV. split.
    + destruct (mask_valid W x); [|discriminate]. intros [= <-]. split; auto. destruct (proj1 MV eq_refl) as (n & Hn & ->). exists n. split; auto. rewrite otz by auto. reflexivity.
    + intros [-> (n & Hn & E)]. rewrite otz in E by auto. rewrite (proj2 MV) by eauto. reflexivity.
  - intros z m. unfold MaskFromLength. destruct (Z.ltb_spec z 0), (Z.ltb_spec (Z.of_N W) z); cbn [orb]; split; try (intros [? ?]; lia); try discriminate.
    + intros [= <-]. split; [lia|]. rewrite otz, mask_num by lia. reflexivity.
    + intros [_ ->]. rewrite otz, mask_num by lia. reflexivity.
  - intros n Hn. rewrite otz by auto. apply mask_length_mask; lia.
Qed.
(* the four-byte, uint16 and uint64 constructors and the net.IPMask conversions *)
Lemma valid6 m : wfu m -> u_mask_valid m = true <-> exists n, n <= 128 /\ num m = ones_then_zeros 128 n.
Proof.
  intros H. rewrite mask_valid6_num by auto. rewrite mask_valid_iff by (try lia; apply num_lt; auto).
  split; intros (n & Hn & E); exists n; split; auto; rewrite E; [symmetry|]; apply otz; auto.
Qed.
Lemma otz_lt W n : n <= W -> ones_then_zeros W n < 2 ^ W.
Proof. intros H. rewrite otz by auto. assert (0 < 2 ^ (W - n)) by apply pow2_pos. assert (2 ^ (W - n) <= 2 ^ W) by (apply N.pow_le_mono_r; lia). lia. Qed.
Theorem C03_ipv4_forms :
  (forall a b c d m, Forall byte [a; b; c; d] ->
     MaskFromBytes4 a b c d = Some m <-> m = be [a; b; c; d] /\ exists n, n <= 32 /\ m = ones_then_zeros 32 n) /\
  (forall bs m, Forall byte bs ->
     MaskFromNetIPMask4 bs = Some m <-> length bs = 4%nat /\ m = be bs /\ exists n, n <= 32 /\ m = ones_then_zeros 32 n) /\
  (forall n, n <= 32 -> let m := ones_then_zeros 32 n in
     length (ToNetIPMask4 m) = 4%nat /\ Forall byte (ToNetIPMask4 m) /\ be (ToNetIPMask4 m) = m /\
     MaskFromNetIPMask4 (ToNetIPMask4 m) = Some m).
Proof.
  destruct (C03_masks 32 (or_introl eq_refl)) as (M1 & M2 & M3).
  assert (P2 : forall bs m, Forall byte bs ->
     MaskFromNetIPMask4 bs = Some m <-> length bs = 4%nat /\ m = be bs /\ exists n, n <= 32 /\ m = ones_then_zeros 32 n).
  { intros bs m H. unfold MaskFromNetIPMask4. destruct (mask_Size bs) as [ones bits] eqn:S'. apply mask_Size_spec in S'; auto.
    destruct S' as [(-> & L & E)|(-> & -> & E)].
    - destruct (N.eqb_spec (8 * nlen bs) 32) as [L8|L8]; cbn [negb].
      + rewrite L8 in *. destruct (MaskFromLength 32 (Z.of_N ones)) as [k|] eqn:K.
        * apply M2 in K. destruct K as [_ ->]. rewrite N2Z.id.
          rewrite (proj2 (mask_valid_iff 32 _ (otz_lt 32 ones L))) by (exists ones; split; auto; apply otz; auto).
          split.
          -- intros [= <-]. split; [unfold nlen in L8; lia|]. split; [auto|eauto].
          -- intros (_ & -> & _). congruence.
        * exfalso. assert (X : MaskFromLength 32 (Z.of_N ones) = Some (ones_then_zeros 32 (Z.to_N (Z.of_N ones)))) by (apply M2; split; [lia|reflexivity]). congruence.
      + split; [discriminate|]. intros (L4 & _). exfalso. unfold nlen in L8. rewrite L4 in L8. apply L8. reflexivity.
    - cbn. split; [discriminate|]. intros (L4 & -> & n & Hn & E'). exfalso. apply (E n).
      + unfold nlen. rewrite L4. exact Hn.
      + unfold nlen. rewrite L4. exact E'. }
  split; [|split].
  - intros a b c d m H. unfold MaskFromBytes4. rewrite AddressFromBytes4_be by (expand; auto).
    assert (B : be [a; b; c; d] < 2 ^ 32) by (apply (be_lt [a; b; c; d] H)). rewrite (M1 _ m B).
    split; intros [-> X]; auto.
  - exact P2.
  - intros n Hn m. unfold ToNetIPMask4. subst m. rewrite M3 by auto. unfold CIDRMask. cbn [N.eqb negb orb]. change (32 =? 32) with true. cbn [orb negb].
    destruct (N.ltb_spec 32 n); [lia|]. change (N.to_nat (32 / 8)) with 4%nat.
    destruct (cidr_bytes_spec 4 n Hn) as (A & B & C). change (8 * N.of_nat 4) with 32 in C. rewrite <- otz in C by auto.
    repeat split; auto. apply P2; auto. split; [exact B|]. split; [symmetry; exact C|eauto].
Qed.
Theorem C03_ipv6_forms :
  (forall h l m, h < 2 ^ 64 -> l < 2 ^ 64 ->
     MaskFromUint64 h l = Some m <-> m = mkU h l /\ exists n, n <= 128 /\ num m = ones_then_zeros 128 n) /\
  (forall a b c d e f g h m, Forall group [a; b; c; d; e; f; g; h] ->
     MaskFromUint16 a b c d e f g h = Some m <->
     wfu m /\ num m = be16 [a; b; c; d; e; f; g; h] /\ exists n, n <= 128 /\ num m = ones_then_zeros 128 n) /\
  (forall z m, u_MaskFromLength z = Some m <-> (0 <= z <= 128)%Z /\ wfu m /\ num m = ones_then_zeros 128 (Z.to_N z)) /\
  (forall m n, wfu m -> n <= 128 -> num m = ones_then_zeros 128 n -> u_mask_length m = n) /\
  (forall bs m, Forall byte bs ->
     MaskFromNetIPMask6 bs = Some m <->
     length bs = 16%nat /\ wfu m /\ num m = be bs /\ exists n, n <= 128 /\ num m = ones_then_zeros 128 n) /\
  (forall m n, wfu m -> n <= 128 -> num m = ones_then_zeros 128 n ->
     length (ToNetIPMask6 m) = 16%nat /\ Forall byte (ToNetIPMask6 m) /\ be (ToNetIPMask6 m) = num m /\
     MaskFromNetIPMask6 (ToNetIPMask6 m) = Some m).
Proof.
  destruct (C03_masks 128 (or_intror eq_refl)) as (M1 & M2 & M3).
  assert (PL : forall z m, u_MaskFromLength z = Some m <-> (0 <= z <= 128)%Z /\ wfu m /\ num m = ones_then_zeros 128 (Z.to_N z)).
  { intros z m. unfold u_MaskFromLength. destruct (lengthToMask_num (Z.to_N z)) as [A B].
    destruct (Z.ltb_spec z 0), (Z.ltb_spec 128 z); cbn [orb]; split; try (intros [? ?]; lia); try discriminate.
    - intros [= <-]. split; [lia|]. split; [auto|]. rewrite B, otz, mask_num by lia. reflexivity.
    - intros (_ & W' & E). f_equal. apply num_inj; auto. rewrite B, E, otz, mask_num by lia. reflexivity. }
  assert (PML : forall m n, wfu m -> n <= 128 -> num m = ones_then_zeros 128 n -> u_mask_length m = n).
  { intros m n H Hn E. rewrite mask_length6_num, E by auto. apply M3; auto. }
  assert (PN : forall bs m, Forall byte bs ->
     MaskFromNetIPMask6 bs = Some m <->
     length bs = 16%nat /\ wfu m /\ num m = be bs /\ exists n, n <= 128 /\ num m = ones_then_zeros 128 n).
  { intros bs m H. unfold MaskFromNetIPMask6. destruct (mask_Size bs) as [ones bits] eqn:S'. apply mask_Size_spec in S'; auto.
    destruct S' as [(-> & L & E)|(-> & -> & E)].
    - destruct (N.eqb_spec (8 * nlen bs) 128) as [L8|L8]; cbn [negb].
      + rewrite L8 in *. destruct (u_MaskFromLength (Z.of_N ones)) as [k|] eqn:K.
        * apply PL in K. destruct K as (_ & K1 & K2). rewrite N2Z.id in K2.
          rewrite (proj2 (valid6 k K1)) by eauto. split.
          -- intros [= <-]. split; [unfold nlen in L8; lia|]. split; [auto|]. split; [congruence|eauto].
          -- intros (_ & W' & E' & _). f_equal. apply num_inj; auto. congruence.
        * exfalso. destruct (lengthToMask_num ones) as [A B].
          assert (X : u_MaskFromLength (Z.of_N ones) = Some (u_lengthToMask ones)).
          { apply PL. split; [lia|]. split; [auto|]. rewrite B, N2Z.id, otz, mask_num by lia. reflexivity. }
          congruence.
      + split; [discriminate|]. intros (L4 & _). exfalso. unfold nlen in L8. rewrite L4 in L8. apply L8. reflexivity.
    - cbn. split; [discriminate|]. intros (L4 & W' & E1 & n & Hn & E'). exfalso. apply (E n).
      + unfold nlen. rewrite L4. exact Hn.
      + unfold nlen. rewrite L4. rewrite <- E1. exact E'. }
  repeat match goal with |- _ /\ _ => split end; auto.
  - intros h l m Hh Hl. assert (W' : wfu (mkU h l)) by (split; auto). unfold MaskFromUint64. pose proof (valid6 _ W') as V.
    destruct (u_mask_valid (mkU h l)); split.
    + intros [= <-]. split; auto. apply V. reflexivity.
    + intros [-> _]. reflexivity.
    + discriminate.
    + intros [-> X]. apply V in X. discriminate.
  - intros a b c d e f g h m H. destruct (group_num _ _ _ _ _ _ _ _ H) as [W' E]. unfold MaskFromUint16. cbv zeta.
    pose proof (valid6 _ W') as V. destruct (u_mask_valid (AddressFromUint16 a b c d e f g h)); split.
    + intros [= <-]. split; auto. split; auto. apply V. reflexivity.
    + intros (W2 & E2 & _). f_equal. apply num_inj; auto. congruence.
    + discriminate.
    + intros (W2 & E2 & X). rewrite E2, <- E in X. apply V in X. discriminate.
  - intros m n H Hn E. unfold ToNetIPMask6. rewrite (PML m n) by auto. unfold CIDRMask. change (128 =? 32) with false. change (128 =? 128) with true. cbn [orb negb].
    destruct (N.ltb_spec 128 n); [lia|]. change (N.to_nat (128 / 8)) with 16%nat.
    destruct (cidr_bytes_spec 16 n Hn) as (A & B & C). change (8 * N.of_nat 16) with 128 in C. rewrite <- otz in C by auto.
    repeat split; auto; try congruence. apply PN; auto. split; [exact B|]. split; [auto|]. split; [congruence|eauto].
Qed.
Example C03_ex : MaskFromUint 32 0xFFFFF000 = Some 0xFFFFF000 /\ MaskFromUint 32 0xFFFF0F00 = None /\ MaskFromLength 32 33 = None /\
  MaskFromLength 32 (-1) = None /\ mask_length 32 0xFFFFF000 = 20 /\ MaskFromNetIPMask4 [255; 255; 240; 0] = Some 0xFFFFF000 /\
  MaskFromNetIPMask4 [255; 0; 255; 0] = None /\ MaskFromNetIPMask4 [255; 0] = None.
Proof. repeat split. Qed.

(* ================= C04: network arithmetic ================= *)
Theorem C04_network : forall W p, ip_width W -> wf_prefix W p ->
  network_spec W p (Network W p) (Broadcast W p) (Host W p) (prefix_range W p).
Proof.
  intros W p HW Hp. assert (W0 : 0 < W) by (destruct HW; subst; lia). pose proof (net_bound W p Hp) as NB.
  pose proof (pow2_pos (W - plen p)) as PP.
  unfold network_spec, prefix_range. rewrite Network_eq, Broadcast_eq, Host_eq by auto. cbn [paddr plen].
  repeat match goal with |- _ /\ _ => split end; auto.
  - apply in_prefix_bounds. lia.
  - apply in_prefix_bounds. lia.
  - intros a. apply in_prefix_bounds.
  - lia.
  - apply N.mod_lt. apply N.pow_nonzero. lia.
  - apply net_host.
  - unfold RangeFromAddresses, addr_lt. destruct (N.ltb_spec (net W p + (2 ^ (W - plen p) - 1)) (net W p)); [lia|reflexivity].
Qed.
Theorem C04_network_ipv6 : forall p, wfp6 p -> plen6 p <= 128 ->
  network_spec 128 (pnum p) (pnum (Network6 p)) (pnum (UpperLimit6 p)) (pnum (Host6 p)) (rnum (prefix_range6 p)).
Proof.
  intros p H L. destruct (Network6_num p H) as [_ ->]. destruct (UpperLimit6_num p H) as [_ ->]. destruct (Host6_num p H) as [_ ->].
  destruct (prefix_range6_num p H) as [_ ->]. apply C04_network; [right; reflexivity|]. split; [apply num_lt; exact H|exact L].
Qed.
(* the mask of a prefix and PrefixFromAddressMask are inverse to each other *)
Theorem C04_mask : forall W p, ip_width W -> wf_prefix W p ->
  prefix_mask W p = ones_then_zeros W (plen p) /\ PrefixFromAddressMask W (paddr p) (prefix_mask W p) = p.
Proof.
  intros W p HW Hp. assert (W0 : 0 < W) by (destruct HW; subst; lia). destruct Hp as [Ha Hl].
  assert (E : prefix_mask W p = ones_then_zeros W (plen p)) by (unfold prefix_mask; rewrite otz, mask_num by auto; reflexivity).
  split; [exact E|]. unfold PrefixFromAddressMask. rewrite E, otz by auto. rewrite mask_length_mask by auto. destruct p; reflexivity.
Qed.
Example C04_ex : let p := mkPrefix 0xC0A80105 20 in
  wf_prefix 32 p /\ Network 32 p = mkPrefix 0xC0A80000 20 /\ Broadcast 32 p = mkPrefix 0xC0A80FFF 20 /\ Host 32 p = mkPrefix 0x105 20.
Proof. repeat split; cbn; lia. Qed.

(* ================= C05: halves ================= *)
Theorem C05_halves : forall W p, ip_width W -> wf_prefix W p -> plen p < W ->
  halves_spec W p (fst (Halves W p)) (snd (Halves W p)).
Proof.
  intros W p HW Hp Hl. assert (W0 : 0 < W) by (destruct HW; subst; lia). rewrite Halves_eq by auto. cbn [fst snd].
  pose proof (net_bound W p Hp) as NB. set (k := W - plen p - 1). 
  assert (E2 : 2 ^ (W - plen p) = 2 * 2 ^ k) by (rewrite <- N.pow_succ_r'; f_equal; lia). rewrite E2 in NB.
  assert (PP : 0 < 2 ^ k) by apply pow2_pos.
  assert (N0 : net W (half W false p) = net W p /\ net W (half W true p) = net W p + 2 ^ k).
  { unfold net, half. cbn [paddr plen]. fold k. replace (W - (plen p + 1)) with k by lia. fold (net W p).
    assert (D : net W p = paddr p / 2 ^ (W - plen p) * 2 * 2 ^ k) by (unfold net; rewrite E2; lia). rewrite D. rewrite N.add_0_r.
    split; [rewrite N.div_mul by lia; reflexivity|].
    rewrite N.div_add_l by lia. rewrite N.div_same by lia. lia. }
  destruct N0 as [N0 N1].
  assert (B0 : forall x, in_prefix W (half W false p) x <-> net W p <= x /\ x <= net W p + (2 ^ k - 1)).
  { intros x. rewrite in_prefix_bounds, N0. unfold half. cbn [plen]. replace (W - (plen p + 1)) with k by lia. reflexivity. }
  assert (B1 : forall x, in_prefix W (half W true p) x <-> net W p + 2 ^ k <= x /\ x <= net W p + 2 ^ k + (2 ^ k - 1)).
  { intros x. rewrite in_prefix_bounds, N1. unfold half. cbn [plen]. replace (W - (plen p + 1)) with k by lia. reflexivity. }
  unfold halves_spec. repeat match goal with |- _ /\ _ => split end; try reflexivity.
  - unfold wf_prefix, half. cbn [paddr plen]. split; lia.
  - unfold wf_prefix, half. cbn [paddr plen]. fold k. split; lia.
  - intros x. rewrite in_prefix_bounds, B0, B1, E2. lia.
  - intros x y. rewrite B0, B1. lia.
Qed.
Theorem C05_halves_ipv6 : forall p, wfp6 p -> plen6 p < 128 ->
  halves_spec 128 (pnum p) (pnum (fst (Halves6 p))) (pnum (snd (Halves6 p))).
Proof.
  intros p H L. destruct (Halves6_num p H) as (_ & _ & E).
  pose proof (C05_halves 128 (pnum p) (or_intror eq_refl)) as X. rewrite <- E in X. apply X; [|exact L].
  split; [apply num_lt; exact H|cbn [pnum plen]; lia].
Qed.
Example C05_ex : Halves 32 (mkPrefix 0xC0A80105 20) = (mkPrefix 0xC0A80000 21, mkPrefix 0xC0A80800 21).
Proof. reflexivity. Qed.

(* ================= C06: range subtraction ================= *)
Lemma wsub1 W x : 0 < W -> x < 2 ^ W -> 0 < x -> wsub W x 1 = x - 1.
Proof. intros HW Hx Hp. destruct (wsub_cases W x 1) as [[_ E]|[L _]]; auto; [apply N.pow_gt_1; lia|lia]. Qed.
Lemma wadd1 W x : 0 < W -> x + 1 < 2 ^ W -> wadd W x 1 = x + 1.
Proof. intros HW Hx. unfold wadd. apply N.mod_small. auto. Qed.
Lemma in_ranges_nil x : in_ranges [] x <-> False.
Proof. split; [intros (r & [] & _)|tauto]. Qed.
Lemma in_ranges_cons r l x : in_ranges (r :: l) x <-> in_range r x \/ in_ranges l x.
Proof.
  unfold in_ranges. split.
  - intros (q & [->|H] & K); [auto|right; eauto].
  - intros [H|(q & H & K)]; [exists r; cbn; auto|exists q; cbn; auto].
Qed.
Theorem C06_minus : forall W r o, ip_width W -> wf_range W r -> wf_range W o -> minus_spec W r o (range_minus W r o).
Proof.
  intros W [rf rl] [of ol] HW [R1 R2] [O1 O2]. assert (W0 : 0 < W) by (destruct HW; subst; lia). cbn [rfirst rlast] in *.
  unfold range_minus, range_prev, range_next, addr_lt, minAddress, maxAddress, addr_lt. cbn [rfirst rlast].
  destruct (N.ltb_spec rf of) as [A|A]; [rewrite (wsub1 W of) by lia|]; (destruct (N.ltb_spec ol rl) as [B|B]; [rewrite (wadd1 W ol) by lia|]);
    try (destruct (N.ltb_spec (of - 1) rl)); try (destruct (N.ltb_spec rf (ol + 1))); cbn [app];
    (split; [|split; [cbn; lia|split; [cbn [separated rlast rfirst]; try tauto; try (split; [lia|exact I])|]]]);
    try (intros x; rewrite !in_ranges_cons, in_ranges_nil; unfold in_range; cbn [rfirst rlast]; lia);
    try (intros x; rewrite in_ranges_nil; unfold in_range; cbn [rfirst rlast]; lia);
    repeat (apply Forall_cons || apply Forall_nil); unfold wf_range; cbn [rfirst rlast]; lia.
Qed.
Theorem C06_minus_ipv6 : forall r o, wfr6 r -> wfr6 o -> num (rfirst6 r) <= num (rlast6 r) -> num (rfirst6 o) <= num (rlast6 o) ->
  minus_spec 128 (rnum r) (rnum o) (map rnum (range_minus6 r o)).
Proof.
  intros r o Hr Ho Lr Lo. destruct (range_minus6_num r o Hr Ho) as [_ ->].
  apply C06_minus; [right; reflexivity| |]; split; auto; apply num_lt; [apply Hr|apply Ho].
Qed.
Example C06_ex : range_minus 32 (mkRange 0 (2 ^ 32 - 1)) (mkRange 5 9) = [mkRange 0 4; mkRange 10 (2 ^ 32 - 1)] /\
  range_minus 32 (mkRange 3 7) (mkRange 0 (2 ^ 32 - 1)) = [] /\ range_minus 32 (mkRange 0 7) (mkRange 0 3) = [mkRange 4 7].
Proof. repeat split. Qed.

(* ================= C07: range addition ================= *)
(* Partial: the range that starts first must not end at the last address of the
   space (there its successor wraps to 0); the full statement is refuted below. *)
Theorem C07_plus_partial : forall W r o, ip_width W -> wf_range W r -> wf_range W o ->
  rlast (if rfirst r <? rfirst o then r else o) + 1 < 2 ^ W ->
  plus_spec W r o (range_plus W r o).
Proof.
  intros W [rf rl] [of ol] HW [R1 R2] [O1 O2]. assert (W0 : 0 < W) by (destruct HW; subst; lia). cbn [rfirst rlast] in *.
  unfold range_plus, range_next, addr_lt, maxAddress, addr_lt. cbn [rfirst rlast].
  destruct (N.ltb_spec rf of) as [A|A]; cbn [rlast]; intros NW; rewrite wadd1 by lia.
  - destruct (N.ltb_spec (rl + 1) of); try destruct (N.ltb_spec rl ol);
    (split; [|split; [cbn; lia|split; [cbn [separated rlast rfirst]; try tauto; try (split; [lia|exact I])|]]]);
    try (intros x; rewrite !in_ranges_cons, in_ranges_nil; unfold in_range; cbn [rfirst rlast]; lia);
    repeat (apply Forall_cons || apply Forall_nil); unfold wf_range; cbn [rfirst rlast]; lia.
  - destruct (N.ltb_spec (ol + 1) rf); try destruct (N.ltb_spec ol rl);
    (split; [|split; [cbn; lia|split; [cbn [separated rlast rfirst]; try tauto; try (split; [lia|exact I])|]]]);
    try (intros x; rewrite !in_ranges_cons, in_ranges_nil; unfold in_range; cbn [rfirst rlast]; lia);
    repeat (apply Forall_cons || apply Forall_nil); unfold wf_range; cbn [rfirst rlast]; lia.
Qed.
Theorem C07_plus_ipv6_partial : forall r o, wfr6 r -> wfr6 o -> num (rfirst6 r) <= num (rlast6 r) -> num (rfirst6 o) <= num (rlast6 o) ->
  num (rlast6 (if num (rfirst6 r) <? num (rfirst6 o) then r else o)) + 1 < 2 ^ 128 ->
  plus_spec 128 (rnum r) (rnum o) (map rnum (range_plus6 r o)).
Proof.
  intros r o Hr Ho Lr Lo E. destruct (range_plus6_num r o Hr Ho) as [_ ->].
  apply C07_plus_partial; [right; reflexivity|split; auto; apply num_lt; apply Hr|split; auto; apply num_lt; apply Ho|].
  cbn [rnum rfirst]. destruct (num (rfirst6 r) <? num (rfirst6 o)); exact E.
Qed.
(* In every case (also at the end of the space) the union of the result is right
   and every range is well formed; what can fail is only disjointness. *)
Theorem C07_plus_union_partial : forall W r o, ip_width W -> wf_range W r -> wf_range W o ->
  Forall (wf_range W) (range_plus W r o) /\ (length (range_plus W r o) <= 2)%nat /\
  (forall x, in_ranges (range_plus W r o) x <-> in_range r x \/ in_range o x).
Proof.
  intros W [rf rl] [of ol] HW [R1 R2] [O1 O2]. assert (W0 : 0 < W) by (destruct HW; subst; lia). cbn [rfirst rlast] in *.
  unfold range_plus, range_next, addr_lt, maxAddress, addr_lt. cbn [rfirst rlast].
  assert (C : forall x, x < 2 ^ W -> (x + 1 < 2 ^ W /\ wadd W x 1 = x + 1) \/ (x + 1 = 2 ^ W /\ wadd W x 1 = 0)).
  { intros x Hx. destruct (wadd_cases W x 1 Hx ltac:(apply N.pow_gt_1; lia)) as [[U V]|[U V]]; [left|right]; lia. }
  destruct (N.ltb_spec rf of) as [A|A].
  - destruct (C rl R2) as [[U V]|[U V]]; rewrite V.
    + destruct (N.ltb_spec (rl + 1) of); try destruct (N.ltb_spec rl ol);
      (split; [|split; [cbn; lia|]]);
      try (intros x; rewrite !in_ranges_cons, in_ranges_nil; unfold in_range; cbn [rfirst rlast]; lia);
      repeat (apply Forall_cons || apply Forall_nil); unfold wf_range; cbn [rfirst rlast]; lia.
    + destruct (N.ltb_spec 0 of); try destruct (N.ltb_spec rl ol);
      (split; [|split; [cbn; lia|]]);
      try (intros x; rewrite !in_ranges_cons, in_ranges_nil; unfold in_range; cbn [rfirst rlast]; lia);
      repeat (apply Forall_cons || apply Forall_nil); unfold wf_range; cbn [rfirst rlast]; lia.
  - destruct (C ol O2) as [[U V]|[U V]]; rewrite V.
    + destruct (N.ltb_spec (ol + 1) rf); try destruct (N.ltb_spec ol rl);
      (split; [|split; [cbn; lia|]]);
      try (intros x; rewrite !in_ranges_cons, in_ranges_nil; unfold in_range; cbn [rfirst rlast]; lia);
      repeat (apply Forall_cons || apply Forall_nil); unfold wf_range; cbn [rfirst rlast]; lia.
    + destruct (N.ltb_spec 0 rf); try destruct (N.ltb_spec ol rl);
      (split; [|split; [cbn; lia|]]);
      try (intros x; rewrite !in_ranges_cons, in_ranges_nil; unfold in_range; cbn [rfirst rlast]; lia);
      repeat (apply Forall_cons || apply Forall_nil); unfold wf_range; cbn [rfirst rlast]; lia.
Qed.
(* the full statement is false: the whole space plus 0.0.0.5-0.0.0.10 *)
Theorem C07_refuted : exists r o, wf_range 32 r /\ wf_range 32 o /\ ~ plus_spec 32 r o (range_plus 32 r o).
Proof.
  exists (mkRange 0 (2 ^ 32 - 1)), (mkRange 5 10). split; [split; cbn; lia|]. split; [split; cbn; lia|].
  intros (_ & _ & S & _). vm_compute in S. destruct S as [S _]. discriminate S.
Qed.
Example C07_ex : range_plus 32 (mkRange 7 9) (mkRange 3 6) = [mkRange 3 9] /\ range_plus 32 (mkRange 8 9) (mkRange 3 6) = [mkRange 3 6; mkRange 8 9].
Proof. repeat split. Qed.

(* ================= C40: the order of prefixes ================= *)
Theorem C40_order : forall W, ip_width W ->
  (forall p q, wf_prefix W p -> wf_prefix W q ->
     prefix_lt W p q = true <->
     net W p < net W q \/
     (net W p = net W q /\ (plen p < plen q \/ (plen p = plen q /\ paddr p < paddr q)))) /\
  (forall p, wf_prefix W p -> prefix_lt W p p = false) /\
  (forall p q r, wf_prefix W p -> wf_prefix W q -> wf_prefix W r ->
     prefix_lt W p q = true -> prefix_lt W q r = true -> prefix_lt W p r = true) /\
  (forall p q, wf_prefix W p -> wf_prefix W q -> prefix_lt W p q = true \/ p = q \/ prefix_lt W q p = true).
Proof.
  intros W HW. assert (W0 : 0 < W) by (destruct HW; subst; lia).
  assert (C : forall p q, wf_prefix W p -> wf_prefix W q ->
     prefix_lt W p q = true <->
     net W p < net W q \/
     (net W p = net W q /\ (plen p < plen q \/ (plen p = plen q /\ paddr p < paddr q)))).
  { intros p q Hp Hq. unfold prefix_lt. rewrite !Network_eq, !Host_eq by auto. cbn [paddr]. unfold addr_lt.
    pose proof (net_host W p) as Ep. pose proof (net_host W q) as Eq.
    set (hp := paddr p mod 2 ^ (W - plen p)) in *. set (hq := paddr q mod 2 ^ (W - plen q)) in *.
    set (np := net W p) in *. set (nq := net W q) in *. set (lp := plen p) in *. set (lq := plen q) in *.
    clearbody np nq hp hq lp lq. clear - Ep Eq.
    destruct (N.eqb_spec np nq) as [E|E]; cbn [negb].
    - destruct (N.eqb_spec lp lq) as [E'|E']; rewrite N.ltb_lt.
      + subst nq lq. split; [intros L; right; repeat split; right; split; [reflexivity|rewrite Ep, Eq; apply N.add_lt_mono_l; exact L]|].
        intros [L|(_ & [L|(_ & L)])]; try (destruct (N.lt_irrefl _ L)). rewrite Ep, Eq in L. apply N.add_lt_mono_l in L. exact L.
      + subst nq. split; [auto|]. intros [L|(_ & [L|(L & _)])]; [destruct (N.lt_irrefl _ L)|exact L|contradiction].
    - rewrite N.ltb_lt. split; [auto|]. intros [L|(L & _)]; [exact L|contradiction]. }
  split; [exact C|]. split; [|split].
  - intros p Hp. destruct (prefix_lt W p p) eqn:E; auto. apply C in E; auto. clear - E. destruct E as [E|(_ & [E|(_ & E)])]; destruct (N.lt_irrefl _ E).
  - intros p q r Hp Hq Hr A B. apply C in A; auto. apply C in B; auto. apply C; auto. clear - A B.
    destruct A as [A|(-> & [A|(-> & A)])], B as [B|(<- & [B|(<- & B)])];
      first [left; exact A | left; exact B | left; exact (N.lt_trans _ _ _ A B) | right; split; [reflexivity|];
             first [left; exact A | left; exact B | left; exact (N.lt_trans _ _ _ A B) | right; split; [reflexivity|exact (N.lt_trans _ _ _ A B)]]].
  - intros p q Hp Hq. rewrite !C by auto. destruct (N.lt_trichotomy (net W p) (net W q)) as [L|[E|L]]; auto.
    destruct (N.lt_trichotomy (plen p) (plen q)) as [L|[E'|L]]; [auto| |right; right; right; auto].
    destruct (N.lt_trichotomy (paddr p) (paddr q)) as [L|[E3|L]]; [auto 7| |right; right; right; repeat split; auto].
    right. left. destruct p as [a l], q as [a2 l2]. cbn [paddr plen] in *. subst. reflexivity.
Qed.
Theorem C40_order_ipv6 : forall p q, wfp6 p -> wfp6 q -> plen6 p <= 128 -> plen6 q <= 128 ->
  prefix_lt6 p q = true <->
  net 128 (pnum p) < net 128 (pnum q) \/
  (net 128 (pnum p) = net 128 (pnum q) /\
   (plen6 p < plen6 q \/ (plen6 p = plen6 q /\ num (paddr6 p) < num (paddr6 q)))).
Proof.
  intros p q Hp Hq Lp Lq. rewrite prefix_lt6_num by auto. apply (proj1 (C40_order 128 (or_intror eq_refl)));
  (split; [apply num_lt; assumption|assumption]).
Qed.
Example C40_ex : prefix_lt 32 (mkPrefix 0x0A000001 8) (mkPrefix 0x0A000000 9) = true /\ prefix_lt 32 (mkPrefix 0x0A000001 8) (mkPrefix 0x0A000002 8) = true.
Proof. repeat split. Qed.

(* ================= C41: net.IPNet conversions ================= *)
Theorem C41_netipnet_ipv4 :
  (forall p, wf_prefix 32 p -> PrefixFromNetIPNet4 (Some (ToNetIPNet4 p)) = Some p) /\
  PrefixFromNetIPNet4 None = None /\
  (forall ip m p, Forall byte ip -> Forall byte m ->
     PrefixFromNetIPNet4 (Some (ip, m)) = Some p <->
     AddressFromNetIP4 ip = Some (paddr p) /\ length m = 4%nat /\ plen p <= 32 /\ be m = ones_then_zeros 32 (plen p)).
Proof.
  assert (P : forall ip m p, Forall byte ip -> Forall byte m ->
     PrefixFromNetIPNet4 (Some (ip, m)) = Some p <->
     AddressFromNetIP4 ip = Some (paddr p) /\ length m = 4%nat /\ plen p <= 32 /\ be m = ones_then_zeros 32 (plen p)).
  { intros ip m p Hip Hm. unfold PrefixFromNetIPNet4. destruct (mask_Size m) as [ones bits] eqn:S'. apply mask_Size_spec in S'; auto.
    destruct S' as [(-> & L & E)|(-> & -> & E)].
    - destruct (N.eqb_spec (8 * nlen m) 32) as [L8|L8]; cbn [negb].
      + rewrite L8 in *. rewrite (N.mod_small ones) by lia. split.
        * destruct (AddressFromNetIP4 ip); [|discriminate]. cbn [option_map]. intros [= <-]. cbn [paddr plen]. repeat split; auto. unfold nlen in L8; lia.
        * intros (-> & L4 & Lp & E'). cbn [option_map]. rewrite E in E'. apply otz_inj in E'; auto. subst. destruct p; reflexivity.
      + split; [discriminate|]. intros (_ & L4 & _). exfalso. unfold nlen in L8. lia.
    - cbn. split; [discriminate|]. intros (_ & L4 & Lp & E'). exfalso. apply (E (plen p)); unfold nlen; rewrite L4; auto. }
  split; [|split; [reflexivity|exact P]].
  intros p [Ha Hl]. destruct (C01_ipv4_to_bytes _ Ha) as (A & B & C & D & E). unfold ToNetIPNet4.
  unfold CIDRMask. change (32 =? 32) with true. cbn [orb negb]. destruct (N.ltb_spec 32 (plen p)); [lia|]. change (N.to_nat (32 / 8)) with 4%nat.
  destruct (cidr_bytes_spec 4 (plen p) Hl) as (A' & B' & C'). change (8 * N.of_nat 4) with 32 in C'. rewrite <- otz in C' by auto.
  apply P; auto.
Qed.
Theorem C41_netipnet_ipv6 :
  (forall p, wfp6 p -> plen6 p <= 128 -> PrefixFromNetIPNet6 (Some (ToNetIPNet6 p)) = Some p) /\
  PrefixFromNetIPNet6 None = None /\
  (forall ip m p, Forall byte ip -> Forall byte m ->
     PrefixFromNetIPNet6 (Some (ip, m)) = Some p <->
     fromSlice6 (Some ip) = Some (paddr6 p) /\ length m = 16%nat /\ plen6 p <= 128 /\ be m = ones_then_zeros 128 (plen6 p)).
Proof.
  assert (P : forall ip m p, Forall byte ip -> Forall byte m ->
     PrefixFromNetIPNet6 (Some (ip, m)) = Some p <->
     fromSlice6 (Some ip) = Some (paddr6 p) /\ length m = 16%nat /\ plen6 p <= 128 /\ be m = ones_then_zeros 128 (plen6 p)).
  { intros ip m p Hip Hm. unfold PrefixFromNetIPNet6. destruct (mask_Size m) as [ones bits] eqn:S'. apply mask_Size_spec in S'; auto.
    destruct S' as [(-> & L & E)|(-> & -> & E)].
    - destruct (N.eqb_spec (8 * nlen m) 128) as [L8|L8]; cbn [negb].
      + rewrite L8 in *. rewrite (N.mod_small ones) by lia. split.
        * destruct (fromSlice6 (Some ip)); [|discriminate]. cbn [option_map]. intros [= <-]. cbn [paddr6 plen6]. repeat split; auto. unfold nlen in L8; lia.
        * intros (-> & L4 & Lp & E'). cbn [option_map]. rewrite E in E'. apply otz_inj in E'; auto. subst. destruct p; reflexivity.
      + split; [discriminate|]. intros (_ & L4 & _). exfalso. unfold nlen in L8. lia.
    - cbn. split; [discriminate|]. intros (_ & L4 & Lp & E'). exfalso. apply (E (plen6 p)); unfold nlen; rewrite L4; auto. }
  split; [|split; [reflexivity|exact P]].
  intros p Ha Hl. destruct (C01_ipv6_to_bytes _ Ha) as (A & B & C & D). unfold ToNetIPNet6.
  unfold CIDRMask. change (128 =? 32) with false. change (128 =? 128) with true. cbn [orb negb]. destruct (N.ltb_spec 128 (plen6 p)); [lia|]. change (N.to_nat (128 / 8)) with 16%nat.
  destruct (cidr_bytes_spec 16 (plen6 p) Hl) as (A' & B' & C'). change (8 * N.of_nat 16) with 128 in C'. rewrite <- otz in C' by auto.
  apply P; auto.
Qed.
Example C41_ex : PrefixFromNetIPNet4 (Some ([192; 168; 1; 5], [255; 255; 240; 0])) = Some (mkPrefix 0xC0A80105 20) /\
  PrefixFromNetIPNet4 (Some ([192; 168; 1; 5], [255; 0; 240; 0])) = None.
Proof. repeat split. Qed.
