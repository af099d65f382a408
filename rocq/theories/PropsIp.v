(* PropsIp.v - C39: package ip dispatches on the address family. *)
From Verif Require Export Ip PropsValues.
From Coq Require Import Arith ZifyBool ZifyNat ZifyN.

(* the values a program can hold (num : u128 -> N is the number a pair of words stands for) *)
Definition valid_dyn (d : dyn) : Prop :=
  match d with
  | Addr4 a => a < 2 ^ 32
  | Addr6 a => wfu a
  | Mask4 m => exists n, n <= 32 /\ m = ones_then_zeros 32 n
  | Mask6 m => wfu m /\ exists n, n <= 128 /\ num m = ones_then_zeros 128 n
  | Pfx4 p => wf_prefix 32 p
  | Pfx6 p => wfp6 p /\ plen6 p <= 128
  | Rng4 r => wf_range 32 r
  | Rng6 r => wfr6 r /\ num (rfirst6 r) <= num (rlast6 r)
  | DNil | Foreign _ => True
  end.
(* the interface types: a foreign type may implement any of them *)
Definition is_address (d : dyn) : Prop := match d with Addr4 _ | Addr6 _ | DNil | Foreign _ => True | _ => False end.
Definition is_mask (d : dyn) : Prop := match d with Mask4 _ | Mask6 _ | DNil | Foreign _ => True | _ => False end.
Definition is_prefix (d : dyn) : Prop := match d with Pfx4 _ | Pfx6 _ | DNil | Foreign _ => True | _ => False end.

Theorem C39_prefix_from_address_mask : forall a m r, is_address a -> is_mask m -> valid_dyn a -> valid_dyn m ->
  ip_PrefixFromAddressMask a m = Some r <->
  (exists x n, n <= 32 /\ a = Addr4 x /\ m = Mask4 (ones_then_zeros 32 n) /\ r = Pfx4 (mkPrefix x n)) \/
  (exists x k n, n <= 128 /\ a = Addr6 x /\ m = Mask6 k /\ num k = ones_then_zeros 128 n /\ r = Pfx6 (mkPrefix6 x n)).
Proof.
  destruct (C03_masks 32 (or_introl eq_refl)) as (_ & _ & M4). destruct C03_ipv6_forms as (_ & _ & _ & M6 & _).
  intros a m r Ia Im Va Vm. split.
  - destruct a; try discriminate; destruct m; try discriminate; intros [= <-].
    + destruct Vm as (n & Hn & ->). left. exists a, n. unfold PrefixFromAddressMask. rewrite M4; auto.
    + destruct Vm as (Wm & n & Hn & E). right. exists a, m, n. unfold PrefixFromAddressMask6. rewrite (M6 m n); auto.
  - intros [(x & n & Hn & -> & -> & ->)|(x & k & n & Hn & -> & -> & E & ->)]; cbn [ip_PrefixFromAddressMask].
    + unfold PrefixFromAddressMask. rewrite M4; auto.
    + destruct Vm as [Wm _]. unfold PrefixFromAddressMask6. rewrite (M6 k n); auto.
Qed.

(* the range of two addresses of one family; [true] says that it is empty *)
Theorem C39_range_from_addresses : forall f l res, is_address f -> is_address l -> valid_dyn f -> valid_dyn l ->
  ip_RangeFromAddresses f l = Some res <->
  (exists x y, f = Addr4 x /\ l = Addr4 y /\
     (x <= y /\ res = (Rng4 (mkRange x y), false) \/ y < x /\ res = (Rng4 (mkRange 0 0), true))) \/
  (exists x y, f = Addr6 x /\ l = Addr6 y /\
     (num x <= num y /\ res = (Rng6 (mkRange6 x y), false) \/
      num y < num x /\ res = (Rng6 (mkRange6 (mkU 0 0) (mkU 0 0)), true))).
Proof.
  assert (L6 : forall a b, wfu a -> wfu b -> u_lt a b = true <-> num a < num b).
  { intros a b Ha Hb. unfold u_lt. destruct (C02_uint128_exact a b Ha Hb) as (_ & X).
    rewrite u_compare_num by auto. destruct (N.compare_spec (num a) (num b)); lia. }
  intros f l res If Il Vf Vl. split.
  - destruct f; try discriminate; destruct l; try discriminate; cbn [ip_RangeFromAddresses valid_dyn] in *.
    + unfold RangeFromAddresses, addr_lt. left. exists a, a0. split; auto. split; auto.
      destruct (N.ltb_spec a0 a); inversion H; subst; auto.
    + unfold RangeFromAddresses6. right. exists a, a0. split; auto. split; auto. pose proof (L6 a0 a Vl Vf).
      destruct (u_lt a0 a); inversion H; subst; [right; split; auto; apply H0; auto|left; split; auto].
      destruct (N.le_gt_cases (num a) (num a0)); auto. apply H0 in H1. discriminate.
  - intros [(x & y & -> & -> & [[H ->]|[H ->]])|(x & y & -> & -> & [[H ->]|[H ->]])]; cbn [ip_RangeFromAddresses valid_dyn] in *.
    + unfold RangeFromAddresses, addr_lt. destruct (N.ltb_spec y x); [lia|reflexivity].
    + unfold RangeFromAddresses, addr_lt. destruct (N.ltb_spec y x); [reflexivity|lia].
    + unfold RangeFromAddresses6. pose proof (L6 y x Vl Vf). destruct (u_lt y x); auto. assert (num y < num x) by (apply H0; auto). lia.
    + unfold RangeFromAddresses6. rewrite (proj2 (L6 y x Vl Vf) H). reflexivity.
Qed.

(* byte slices: 4 bytes are IPv4, 16 bytes are IPv6 (also when they hold an
   IPv4-mapped address), every other size is rejected *)
Theorem C39_address_from_netip : forall ip d, Forall byte ip ->
  ip_AddressFromNetIP ip = Some d <->
  (length ip = 4%nat /\ d = Addr4 (be ip)) \/
  (length ip = 16%nat /\ exists u, wfu u /\ num u = be ip /\ d = Addr6 u).
Proof.
  intros ip d H. unfold ip_AddressFromNetIP. destruct C01_ipv6_from_bytes as [_ F6]. destruct (F6 ip H) as [_ F].
  destruct (N.eqb_spec (N.of_nat (length ip)) 16) as [L|L]; [|destruct (N.eqb_spec (N.of_nat (length ip)) 4) as [L4|L4]].
  - destruct (F ltac:(lia)) as (u & E & Wu & Nu & _). rewrite E. cbn [option_map]. split.
    + intros [= <-]. right. split; [lia|]. eauto.
    + intros [[? _]|[_ (v & Wv & Nv & ->)]]; [lia|]. do 2 f_equal. apply num_inj; auto. congruence.
  - assert (X : AddressFromNetIP4 ip = Some (be ip)).
    { apply C01_ipv4_from_netip; auto. exists ip. split; [lia|auto]. }
    rewrite X. cbn [option_map]. split.
    + intros [= <-]. left. split; [lia|auto].
    + intros [[_ ->]|[? _]]; [reflexivity|lia].
  - split; [discriminate|]. intros [[? _]|[? _]]; lia.
Qed.
Theorem C39_mask_from_netipmask : forall m d, Forall byte m ->
  ip_MaskFromNetIPMask m = Some d <->
  (length m = 4%nat /\ d = Mask4 (be m) /\ exists n, n <= 32 /\ be m = ones_then_zeros 32 n) \/
  (length m = 16%nat /\ exists u n, wfu u /\ num u = be m /\ d = Mask6 u /\ n <= 128 /\ be m = ones_then_zeros 128 n).
Proof.
  intros m d H. unfold ip_MaskFromNetIPMask. destruct (mask_Size m) as [ones bits] eqn:S'. apply mask_Size_spec in S'; auto.
  destruct (C03_masks 32 (or_introl eq_refl)) as (_ & M2 & _). destruct C03_ipv6_forms as (_ & _ & P2 & _).
  destruct (Z.ltb_spec (Z.of_N ones) 0); [lia|]. destruct (Z.ltb_spec (Z.of_N bits) 0); [lia|]. cbn [orb].
  destruct S' as [(-> & L & E)|(-> & -> & E)].
  - destruct (N.ltb_spec (8 * nlen m) ones); [lia|].
    destruct (N.eqb_spec (8 * nlen m) 128) as [B|B]; [|destruct (N.eqb_spec (8 * nlen m) 32) as [B4|B4]].
    + rewrite B in *. split.
      * destruct (u_MaskFromLength (Z.of_N ones)) as [k|] eqn:K; [|discriminate]. intros [= <-]. right. split; [unfold nlen in B; lia|].
        apply P2 in K. rewrite N2Z.id in K. destruct K as (_ & Wk & Nk). exists k, ones. repeat split; auto; try congruence; apply Wk.
      * intros [[? _]|(_ & u & n & Wu & Nu & -> & Hn & En)]; [unfold nlen in B; lia|].
        assert (K : u_MaskFromLength (Z.of_N ones) = Some u).
        { apply P2. rewrite N2Z.id. split; [lia|]. split; [auto|congruence]. }
        rewrite K. reflexivity.
    + rewrite B4 in *. split.
      * destruct (MaskFromLength 32 (Z.of_N ones)) as [k|] eqn:K; [|discriminate]. intros [= <-]. left. split; [unfold nlen in B4; lia|].
        apply M2 in K. rewrite N2Z.id in K. destruct K as (_ & ->). split; [congruence|eauto].
      * intros [(_ & -> & n & Hn & En)|[? _]]; [|unfold nlen in B4; lia].
        assert (K : MaskFromLength 32 (Z.of_N ones) = Some (be m)).
        { apply M2. rewrite N2Z.id. split; [lia|auto]. }
        rewrite K. reflexivity.
    + split; [discriminate|]. unfold nlen in B, B4. intros [(? & _)|(? & _)]; lia.
  - cbn. split; [discriminate|]. unfold nlen in E.
    intros [(L & _ & n & Hn & En)|(L & u & n & _ & _ & _ & Hn & En)]; exfalso; rewrite L in E; apply (E n); auto.
Qed.
Theorem C39_prefix_from_netipnet : ip_PrefixFromNetIPNet None = None /\
  forall ip m d, Forall byte ip -> Forall byte m ->
  ip_PrefixFromNetIPNet (Some (ip, m)) = Some d <->
  (length ip = 4%nat /\ length m = 4%nat /\ exists n, n <= 32 /\ be m = ones_then_zeros 32 n /\ d = Pfx4 (mkPrefix (be ip) n)) \/
  (length ip = 16%nat /\ length m = 16%nat /\ exists u n, wfu u /\ num u = be ip /\ n <= 128 /\ be m = ones_then_zeros 128 n /\
     d = Pfx6 (mkPrefix6 u n)).
Proof.
  split; [reflexivity|]. intros ip m d Hi Hm. unfold ip_PrefixFromNetIPNet.
  destruct C41_netipnet_ipv4 as (_ & _ & N4). destruct C41_netipnet_ipv6 as (_ & _ & N6).
  destruct C01_ipv6_from_bytes as [_ F6]. destruct (F6 ip Hi) as [_ F].
  destruct (N.eqb_spec (N.of_nat (length ip)) 16) as [L|L]; [|destruct (N.eqb_spec (N.of_nat (length ip)) 4) as [L4|L4]].
  - destruct (F ltac:(lia)) as (u & E & Wu & Nu & _). split.
    + destruct (PrefixFromNetIPNet6 (Some (ip, m))) as [p|] eqn:P; [|discriminate]. intros [= <-].
      apply N6 in P; auto. destruct P as (P1 & P2 & P3 & P4). right. split; [lia|]. split; [auto|]. exists u, (plen6 p).
      repeat split; auto; try apply Wu. f_equal. destruct p as [pa pl]; cbn [plen6 paddr6] in *. congruence.
    + intros [(? & _)|(_ & Lm & v & n & Wv & Nv & Hn & En & ->)]; [lia|].
      rewrite (proj2 (N6 ip m (mkPrefix6 v n) Hi Hm)); [reflexivity|]. cbn [paddr6 plen6]. repeat split; auto.
      rewrite E. f_equal. apply num_inj; auto. congruence.
  - assert (X : AddressFromNetIP4 ip = Some (be ip)).
    { apply C01_ipv4_from_netip; auto. exists ip. split; [lia|auto]. }
    split.
    + destruct (PrefixFromNetIPNet4 (Some (ip, m))) as [p|] eqn:P; [|discriminate]. intros [= <-].
      apply N4 in P; auto. destruct P as (P1 & P2 & P3 & P4). left. split; [lia|]. split; [auto|]. exists (plen p).
      repeat split; auto. f_equal. destruct p as [pa pl]; cbn [plen paddr] in *. congruence.
    + intros [(_ & Lm & n & Hn & En & ->)|(? & _)]; [|lia].
      rewrite (proj2 (N4 ip m (mkPrefix (be ip) n) Hi Hm)); [reflexivity|]. cbn [paddr plen]. repeat split; auto.
  - split; [discriminate|]. intros [[? _]|[? _]]; lia.
Qed.

(* going out to package net and back, or taking a prefix apart and putting it
   together again, is the identity in both families *)
Theorem C39_round_trips : forall d, valid_dyn d ->
  (forall bs, dyn_ToNetIP d = Some bs -> ip_AddressFromNetIP bs = Some d /\ dyn_NumBits d = Some (8 * N.of_nat (length bs))) /\
  (forall bs, dyn_ToNetIPMask d = Some bs -> ip_MaskFromNetIPMask bs = Some d) /\
  (forall n, dyn_ToNetIPNet d = Some n -> ip_PrefixFromNetIPNet (Some n) = Some d) /\
  (is_prefix d -> d <> DNil -> (forall t, d <> Foreign t) ->
     ip_PrefixFromAddressMask (ip_AddressFromPrefix d) (ip_MaskFromPrefix d) = Some d /\
     dyn_Length (ip_MaskFromPrefix d) = dyn_Length d) /\
  (is_address d -> d <> DNil -> (forall t, d <> Foreign t) ->
     ip_AddressFromPrefix (ip_PrefixFromAddress d) = d /\ dyn_Length (ip_PrefixFromAddress d) = dyn_NumBits d).
Proof.
  intros d V. repeat match goal with |- _ /\ _ => split end.
  - intros bs E. destruct d; try discriminate; injection E as <-; cbn [valid_dyn] in V.
    + destruct (C01_ipv4_to_bytes _ V) as (A & B & C & _). rewrite A. split; [|reflexivity]. apply C39_address_from_netip; auto. left. split; [auto|congruence].
    + destruct (C01_ipv6_to_bytes _ V) as (A & B & C & _). rewrite A. split; [|reflexivity]. apply C39_address_from_netip; auto. right. split; eauto.
  - intros bs E. destruct d; try discriminate; injection E as <-; cbn [valid_dyn] in V.
    + destruct V as (n & Hn & ->). destruct C03_ipv4_forms as (_ & _ & F). destruct (F n Hn) as (A & B & C & _).
      apply C39_mask_from_netipmask; auto. left. split; [auto|]. rewrite C. split; [reflexivity|eauto].
    + destruct V as (Wm & n & Hn & E). destruct C03_ipv6_forms as (_ & _ & _ & _ & _ & F). destruct (F m n Wm Hn E) as (A & B & C & _).
      apply C39_mask_from_netipmask; auto. right. split; [auto|]. rewrite C. exists m, n. repeat split; auto; apply Wm.
  - intros [ip m] E. destruct d as [| | | | |p|p| | |]; try discriminate; injection E; intros <- <-; cbn [valid_dyn] in V.
    + destruct C41_netipnet_ipv4 as (X & _). specialize (X p V). unfold ToNetIPNet4 in X. unfold ip_PrefixFromNetIPNet.
      destruct (C01_ipv4_to_bytes _ (proj1 V)) as (A & _). rewrite A. cbn [N.of_nat]. change (_ =? 16) with false. change (_ =? 4) with true. cbn iota.
      rewrite X. reflexivity.
    + destruct V as [Wp Lp]. destruct C41_netipnet_ipv6 as (X & _). specialize (X p Wp Lp). unfold ToNetIPNet6 in X. unfold ip_PrefixFromNetIPNet.
      destruct (C01_ipv6_to_bytes _ Wp) as (A & _). rewrite A. cbn [N.of_nat]. change (_ =? 16) with true. cbn iota.
      rewrite X. reflexivity.
  - destruct d as [| | | | |p|p| | |]; try contradiction; try congruence; cbn [valid_dyn ip_AddressFromPrefix ip_MaskFromPrefix ip_PrefixFromAddressMask dyn_Length] in *.
    + destruct (C04_mask 32 p (or_introl eq_refl) V) as [_ X]. rewrite X. split; [reflexivity|].
      apply (f_equal plen) in X. cbn [plen] in X. unfold PrefixFromAddressMask in X. cbn [plen] in X. congruence.
    + destruct V as [Wp Lp]. destruct (lengthToMask_num (plen6 p)) as [A B].
      assert (L : u_mask_length (prefix_mask6 p) = plen6 p).
      { destruct C03_ipv6_forms as (_ & _ & _ & F & _). apply F; auto. unfold prefix_mask6. rewrite B, otz, mask_num by lia. reflexivity. }
      unfold PrefixFromAddressMask6. rewrite L. destruct p; auto.
  - destruct d; try contradiction; try congruence; cbn; auto. 
Qed.
(* the accessors give the component of the same family, nil for anything else *)
Theorem C39_accessors : forall d, valid_dyn d -> is_prefix d ->
  match d with
  | Pfx4 p => exists f l, ip_RangeFromPrefix d = Rng4 (mkRange f l) /\ ip_FirstFromRange (ip_RangeFromPrefix d) = Addr4 f /\
      ip_LastFromRange (ip_RangeFromPrefix d) = Addr4 l /\ (forall a, in_prefix 32 p a <-> f <= a /\ a <= l) /\
      ip_AddressFromPrefix d = Addr4 (paddr p) /\ ip_MaskFromPrefix d = Mask4 (ones_then_zeros 32 (plen p))
  | Pfx6 p => exists f l m, ip_RangeFromPrefix d = Rng6 (mkRange6 f l) /\ ip_FirstFromRange (ip_RangeFromPrefix d) = Addr6 f /\
      ip_LastFromRange (ip_RangeFromPrefix d) = Addr6 l /\
      (forall a, in_prefix 128 (mkPrefix (num (paddr6 p)) (plen6 p)) a <-> num f <= a /\ a <= num l) /\
      ip_AddressFromPrefix d = Addr6 (paddr6 p) /\ ip_MaskFromPrefix d = Mask6 m /\ num m = ones_then_zeros 128 (plen6 p)
  | _ => ip_RangeFromPrefix d = DNil /\ ip_AddressFromPrefix d = DNil /\ ip_MaskFromPrefix d = DNil /\
         ip_PrefixFromAddress d = DNil /\ ip_FirstFromRange d = DNil /\ ip_LastFromRange d = DNil
  end.
Proof.
  intros d V I. destruct d as [| | | | |p|p| | |]; try contradiction; cbn [valid_dyn] in V; auto 10.
  - destruct (C04_network 32 p (or_introl eq_refl) V) as (_ & _ & _ & _ & _ & X & _ & _ & _ & R).
    exists (paddr (Network 32 p)), (paddr (Broadcast 32 p)). cbn [ip_RangeFromPrefix]. rewrite R. cbn [ip_FirstFromRange ip_LastFromRange rfirst rlast ip_AddressFromPrefix ip_MaskFromPrefix].
    repeat split; try apply X; auto. f_equal. apply (C04_mask 32 p (or_introl eq_refl) V).
  - destruct V as [Wp Lp]. destruct (C04_network_ipv6 p Wp Lp) as (_ & _ & _ & _ & _ & X & _ & _ & _ & R).
    exists (rfirst6 (prefix_range6 p)), (rlast6 (prefix_range6 p)), (prefix_mask6 p). cbn [ip_RangeFromPrefix ip_FirstFromRange ip_LastFromRange ip_AddressFromPrefix ip_MaskFromPrefix].
    unfold rnum in R. injection R as R1 R2. split; [destruct (prefix_range6 p); reflexivity|]. repeat split; auto.
    + apply X in H. rewrite R1. apply H.
    + apply X in H. rewrite R2. apply H.
    + intros [H1 H2]. apply X. rewrite R1 in H1. rewrite R2 in H2. auto.
    + destruct (lengthToMask_num (plen6 p)) as [_ B]. unfold prefix_mask6. rewrite B, otz, mask_num by lia. reflexivity.
Qed.

Example C39_ex :
  ip_PrefixFromAddressMask (Addr4 0xC0A80105) (Mask4 0xFFFFF000) = Some (Pfx4 (mkPrefix 0xC0A80105 20)) /\
  ip_PrefixFromAddressMask (Addr4 0xC0A80105) (Mask6 (mkU 0 0)) = None /\
  ip_PrefixFromAddressMask DNil (Mask4 0) = None /\
  ip_RangeFromAddresses (Addr4 5) (Addr6 (mkU 0 9)) = None /\
  ip_RangeFromAddresses (Addr4 5) (Addr4 9) = Some (Rng4 (mkRange 5 9), false) /\
  ip_AddressFromNetIP [192; 168; 1; 5] = Some (Addr4 0xC0A80105) /\
  ip_AddressFromNetIP [0;0;0;0;0;0;0;0;0;0;255;255;192;168;1;5] = Some (Addr6 (mkU 0 0xFFFFC0A80105)) /\
  ip_AddressFromNetIP [1; 2; 3] = None /\
  ip_MaskFromNetIPMask [255; 255; 0; 0] = Some (Mask4 0xFFFF0000) /\ ip_MaskFromNetIPMask [255; 0; 255; 0] = None /\
  valid_dyn (Mask4 0xFFFFF000) /\ valid_dyn (Pfx4 (mkPrefix 0xC0A80105 20)).
Proof. repeat split; try reflexivity. exists 20. split; [cbv; discriminate|reflexivity]. cbv; discriminate. Qed.
