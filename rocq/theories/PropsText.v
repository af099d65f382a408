(* PropsText.v - C43..C46: text. *)
From Verif Require Export TextParse TextGram PropsIp PropsSet.
From Coq Require Import Arith Lia ZifyBool ZifyNat ZifyN.

(* ================= C43: IPv4 ================= *)

(* the text of an address is its dotted quad and parses back to it; any string
   without a colon that parses is the dotted quad of the result (no leading
   zeros, no spaces, no short forms); whatever parses gives a 32-bit value *)
Theorem C43_ipv4_address : forall a, a < 2 ^ 32 ->
  Address_String4 a = quad a /\ AddressFromString4 (quad a) = Some a.
Proof. intros a Ha. pose proof (text4_quad a Ha) as Q. split; [exact Q|]. rewrite <- Q. apply text4_address. exact Ha. Qed.

Theorem C43_ipv4_address_exact : forall s a, ~ In ":"%char s ->
  AddressFromString4 s = Some a <-> a < 2 ^ 32 /\ s = quad a.
Proof.
  intros s a Hs. rewrite text4_exact by exact Hs. split; intros [Ha ->]; (split; [exact Ha|]); [|symmetry]; apply text4_quad; exact Ha.
Qed.

(* every string: a prefix parses iff it is dotted quad, slash, digits *)
Theorem C43_ipv4_prefix_exact : forall s p,
  PrefixFromString4 s = Some p <->
  wf_prefix 32 p /\ exists t, digit_string t (plen p) /\ s = quad (paddr p) ++ #"/" ++ t.
Proof.
  intros s p. rewrite text4_prefix_exact. split.
  - intros (Hp & t & D & ->). split; [exact Hp|]. exists t. rewrite text4_quad by apply Hp. auto.
  - intros (Hp & t & D & ->). split; [exact Hp|]. exists t. rewrite text4_quad by apply Hp. auto.
Qed.
Theorem C43_ipv4_prefix : forall p, wf_prefix 32 p ->
  Prefix_String4 p = quad (paddr p) ++ #"/" ++ decimal (plen p) /\ PrefixFromString4 (Prefix_String4 p) = Some p.
Proof.
  intros p Hp. split; [|apply text4_prefix; exact Hp]. unfold Prefix_String4. destruct Hp as [Ha Hl].
  rewrite text4_quad, fmt_decimal by (try exact Ha; lia). reflexivity.
Qed.

(* ================= C44: IPv6 and package ip ================= *)

(* the full claim would be for every address and prefix; it fails exactly for the
   v4-mapped ones, see C44_mapped_refuted *)
Theorem C44_ipv6_roundtrip_partial :
  (forall a, wfu a -> ~ v4_mapped (num a) -> AddressFromString6 (Address_String6 a) = Some a) /\
  (forall p, wfu (paddr6 p) -> plen6 p <= 128 -> ~ v4_mapped (num (paddr6 p)) ->
     Prefix_String6 p = Address_String6 (paddr6 p) ++ #"/" ++ decimal (plen6 p) /\
     PrefixFromString6 (Prefix_String6 p) = Some p).
Proof.
  split; [exact text6_address|]. intros p Ha Hl Hm. split; [|apply text6_prefix; assumption].
  unfold Prefix_String6. rewrite fmt_decimal by lia. reflexivity.
Qed.

Lemma colon6 a r : wfu a -> ~ v4_mapped (num a) -> has_colon (Address_String6 a ++ r) = true.
Proof.
  intros Ha Hm. destruct (string6_chars a Ha Hm) as (_ & p & t & -> & _). unfold has_colon. apply existsb_exists.
  exists ":"%char. split; [|reflexivity]. rewrite <- app_assoc. apply in_or_app. right. left. reflexivity.
Qed.
Lemma colon4 s : ~ In ":"%char s -> has_colon s = false.
Proof.
  intros H. unfold has_colon. destruct (existsb _ s) eqn:E; [|reflexivity]. apply existsb_exists in E.
  destruct E as (c & I0 & E). apply eqb_ascii in E. subst c. contradiction.
Qed.
Lemma colon4p p : wf_prefix 32 p -> ~ In ":"%char (Prefix_String4 p).
Proof.
  intros [Ha Hl] I0. unfold Prefix_String4 in I0. apply in_app_or in I0. destruct I0 as [I0|I0]; [apply (no_colon4 _ Ha); exact I0|].
  cbn [app] in I0. destruct I0 as [X|I0]; [discriminate|]. revert I0. apply (digits_no_colon _ (plen p)). apply fmt_digits. lia.
Qed.

(* an interface value of package ip that holds a v4-mapped ipv6 address *)
Definition dyn_mapped (d : dyn) : Prop :=
  match d with Addr6 a => v4_mapped (num a) | Pfx6 p => v4_mapped (num (paddr6 p)) | _ => False end.

Theorem C44_ip_roundtrip_partial : forall d s, valid_dyn d -> ~ dyn_mapped d -> dyn_String d = Some s ->
  (is_address d -> ip_AddressFromString s = Some d) /\ (is_prefix d -> ip_PrefixFromString s = Some d).
Proof.
  intros d s V M H. destruct d; try discriminate; injection H as <-; cbn [valid_dyn dyn_mapped] in *; (split; intros K; cbn [is_address is_prefix] in K; try contradiction K).
  - unfold ip_AddressFromString. rewrite colon4 by (apply no_colon4; exact V). rewrite text4_address by exact V. reflexivity.
  - unfold ip_AddressFromString. pose proof (colon6 a [] V M) as C. rewrite app_nil_r in C. rewrite C, text6_address by assumption. reflexivity.
  - unfold ip_PrefixFromString. rewrite colon4 by (apply colon4p; exact V). rewrite text4_prefix by exact V. reflexivity.
  - unfold ip_PrefixFromString. destruct V as [V1 V2]. unfold Prefix_String6 at 1. rewrite colon6 by assumption.
    rewrite text6_prefix by assumption. reflexivity.
Qed.

(* ... and the v4-mapped ones never come back: their text is that of an IPv4
   address, which ipv6 refuses and package ip takes for IPv4 *)
Theorem C44_mapped_refuted : forall a, wfu a -> v4_mapped (num a) ->
  Address_String6 a = quad (num a mod 2 ^ 32) /\
  AddressFromString6 (Address_String6 a) = None /\
  (forall n, PrefixFromString6 (Prefix_String6 (mkPrefix6 a n)) = None) /\
  ip_AddressFromString (Address_String6 a) = Some (Addr4 (num a mod 2 ^ 32)) /\
  (forall n, n <= 32 -> ip_PrefixFromString (Prefix_String6 (mkPrefix6 a n)) = Some (Pfx4 (mkPrefix (num a mod 2 ^ 32) n))).
Proof.
  intros a Ha M. rewrite (mapped_text a Ha M). set (x := num a mod 2 ^ 32).
  assert (Hx : x < 2 ^ 32) by (apply N.mod_lt; discriminate).
  assert (P6 : forall n, Prefix_String6 (mkPrefix6 a n) = Prefix_String4 (mkPrefix x n)).
  { intros n. unfold Prefix_String6, Prefix_String4. cbn [paddr6 plen6 paddr plen]. rewrite (mapped_text a Ha M). reflexivity. }
  split; [apply text4_quad; exact Hx|]. split; [|split; [|split]].
  - destruct (AddressFromString6 (Address_String4 x)) as [b|] eqn:E; [|reflexivity]. exfalso.
    apply from6_parse in E. destruct E as (_ & N & ip & P & E). pose proof (text4_address x Hx) as T. apply from4_parse in T.
    destruct T as (ip' & P' & M' & _). rewrite P in P'. injection P' as <-. apply N. rewrite E. exact M'.
  - intros n. rewrite P6. unfold PrefixFromString6, Prefix_String4, ParseCIDR. cbn [app paddr plen].
    rewrite cut_at_app by (apply no_slash4; exact Hx).
    destruct (bytes4 _ Hx) as (b3 & b2 & b1 & b0 & H3 & H2 & H1 & H0 & _ & E & ->). rewrite parseIPv4_dotted by assumption.
    destruct (dtoi (fmt_d n)) as [[m i]|]; [|reflexivity].
    destruct (negb (Nat.eqb i (length (fmt_d n))) || (8 * 4 <? m)) eqn:B; [reflexivity|].
    apply orb_false_iff in B. destruct B as [_ B]. change (8 * 4) with 32 in *. apply N.ltb_ge in B.
    unfold PrefixFromNetIPNet6. rewrite Size_CIDRMask by auto. reflexivity.
  - unfold ip_AddressFromString. rewrite colon4 by (apply no_colon4; exact Hx). rewrite text4_address by exact Hx. reflexivity.
  - intros n Hn. rewrite P6. assert (Hp : wf_prefix 32 (mkPrefix x n)) by (split; assumption).
    unfold ip_PrefixFromString. rewrite colon4 by (apply colon4p; exact Hp). rewrite text4_prefix by exact Hp. reflexivity.
Qed.

(* whatever the string: ipv4 gives 32-bit addresses, ipv6 gives 128-bit addresses
   that are not v4-mapped, and no string is an address of both families *)
Theorem C44_parse_sound : forall s,
  (forall a, AddressFromString4 s = Some a -> a < 2 ^ 32 /\ AddressFromString6 s = None) /\
  (forall a, AddressFromString6 s = Some a -> wfu a /\ ~ v4_mapped (num a) /\ AddressFromString6 (Address_String6 a) = Some a).
Proof.
  intros s. split.
  - intros a H. apply from4_parse in H. destruct H as (ip & P & M & ->). split; [apply N.mod_lt; discriminate|].
    destruct (AddressFromString6 s) as [b|] eqn:E; [|reflexivity]. exfalso. apply from6_parse in E.
    destruct E as (_ & N & ip' & P' & E). rewrite P in P'. injection P' as <-. apply N. rewrite E. exact M.
  - intros a H. apply from6_parse in H. destruct H as (Ha & N & _). split; [exact Ha|]. split; [exact N|]. apply text6_address; assumption.
Qed.

(* exactly which strings are read, and as what.  The texts of an IPv6 address are
   given by the grammar ipv6_text of TextSpec.v (RFC 4291, 2.2, without a bound on
   leading zeros).  A v4-mapped one is refused by ipv6 and read by ipv4. *)
Lemma net_IPv4_mapped b3 b2 b1 b0 : byte b3 -> byte b2 -> byte b1 -> byte b0 ->
  be (net_IPv4 [b3; b2; b1; b0]) = 0xffff * 2 ^ 32 + be [b3; b2; b1; b0].
Proof.
  intros. unfold net_IPv4. rewrite be_app. change (8 * nlen [b3; b2; b1; b0]) with 32. do 2 f_equal.
Qed.
Lemma mapped_low a : a < 2 ^ 32 -> v4_mapped (0xffff * 2 ^ 32 + a) /\ (0xffff * 2 ^ 32 + a) mod 2 ^ 32 = a.
Proof.
  intros H. unfold v4_mapped. split.
  - symmetry. apply (N.div_unique _ _ _ a); [exact H|lia].
  - symmetry. apply (N.mod_unique _ _ 0xffff); [exact H|lia].
Qed.
Lemma mapped_split a : v4_mapped a -> a = 0xffff * 2 ^ 32 + a mod 2 ^ 32.
Proof. unfold v4_mapped. intros H. pose proof (N.div_mod a (2 ^ 32) ltac:(discriminate)) as E. rewrite H in E. lia. Qed.
Theorem C47_text_exact : forall s,
  (forall a, AddressFromString6 s = Some a <-> wfu a /\ ~ v4_mapped (num a) /\ ipv6_text s (num a)) /\
  (forall a, AddressFromString4 s = Some a <-> a < 2 ^ 32 /\ (s = quad a \/ ipv6_text s (0xffff * 2 ^ 32 + a))).
Proof.
  intros s. split; intros a.
  - rewrite from6_parse. split.
    + intros (Ha & M & ip & P & E). split; [exact Ha|]. split; [exact M|]. apply ParseIP_text in P. destruct P as [P|P].
      * exfalso. apply M. rewrite E. apply parseIPv4_inv in P. destruct P as (b3 & b2 & b1 & b0 & H3 & H2 & H1 & H0 & _ & ->).
        rewrite net_IPv4_mapped by assumption. apply mapped_low. apply dotted_of_bytes; assumption.
      * rewrite E. apply text_read. exact P.
    + intros (Ha & M & T). split; [exact Ha|]. split; [exact M|]. destruct (read_text s _ T) as (ip & P & E). exists ip. split; [|congruence].
      apply ParseIP_text. auto.
  - rewrite from4_parse. split.
    + intros (ip & P & M & ->). split; [apply N.mod_lt; discriminate|]. apply ParseIP_text in P. destruct P as [P|P].
      * left. apply parseIPv4_inv in P. destruct P as (b3 & b2 & b1 & b0 & H3 & H2 & H1 & H0 & -> & ->).
        destruct (dotted_of_bytes b3 b2 b1 b0 H3 H2 H1 H0) as [L E]. rewrite net_IPv4_mapped by assumption. 
        destruct (mapped_low _ L) as [_ ->]. rewrite <- text4_quad by exact L. symmetry. exact E.
      * right. rewrite <- mapped_split by exact M. apply text_read. exact P.
    + intros [Ha [->|T]].
      * rewrite <- text4_quad by exact Ha. pose proof (text4_address a Ha) as X. apply from4_parse in X. exact X.
      * destruct (read_text s _ T) as (ip & P & E). exists ip. split; [apply ParseIP_text; auto|]. rewrite E. destruct (mapped_low a Ha) as [X Y].
        split; [exact X|]. symmetry. exact Y.
Qed.
(* a prefix: the text of any IPv6 address, v4-mapped or not, a slash and digits *)
Lemma text_noslash s a : ipv6_text s a -> ~ In "/"%char s.
Proof.
  assert (HT : forall t g, hex_text t g -> ~ In "/"%char t).
  { intros t g (_ & _ & ds & F & _). induction F as [|c d t ds Hc F IH]; [intros []|]. intros [X|X]; [|exact (IH X)]. subst c.
    apply hex_digit_iff in Hc. discriminate Hc. }
  assert (A : forall (x y : str), ~ In "/"%char x -> ~ In "/"%char y -> ~ In "/"%char (x ++ y)).
  { intros x y Hx Hy I0. apply in_app_or in I0. destruct I0; auto. }
  assert (C1 : ~ In "/"%char #":") by (intros [X|[]]; discriminate X).
  assert (C2 : ~ In "/"%char #"::") by (intros [X|[X|[]]]; discriminate X).
  assert (HG : forall t n v, hex_groups t n v -> ~ In "/"%char t).
  { induction 1 as [t g H|t g s0 n v H _ IH]; [exact (HT t g H)|]. apply A; [exact (HT t g H)|]. apply A; assumption. }
  assert (HQ : forall v, v < 2 ^ 32 -> ~ In "/"%char (quad v)).
  { intros v Hv. rewrite <- text4_quad by exact Hv. intros I0. pose proof (string4_chars v Hv) as F. rewrite Forall_forall in F.
    destruct (F _ I0) as [X|X]; [apply X; reflexivity|discriminate X]. }
  assert (HL : forall t n v, last_groups t n v -> ~ In "/"%char t).
  { intros t n v H. destruct H as [t n v H|v H|t n v w H Hw]; [exact (HG t n v H)|exact (HQ v H)|].
    apply A; [exact (HG t n v H)|]. apply A; [exact C1|exact (HQ w Hw)]. }
  intros H. destruct H as [s a H| |s n v H Hn|s n v H Hn|s1 n1 v1 s2 n2 v2 H1 H2 Hn].
  - exact (HL s 8%nat a H).
  - exact C2.
  - apply A; [exact (HG s n v H)|exact C2].
  - apply A; [exact C2|exact (HL s n v H)].
  - apply A; [exact (HG s1 n1 v1 H1)|]. apply A; [exact C2|exact (HL s2 n2 v2 H2)].
Qed.
Lemma text_not4 s a : ipv6_text s a -> parseIPv4 s = None.
Proof.
  intros T. destruct (parseIPv4 s) as [ip|] eqn:P; [|reflexivity]. exfalso. apply parseIPv4_nocolon in P. apply P.
  destruct (text_colon s a T) as (pre & r & -> & _). apply in_or_app. right. left. reflexivity.
Qed.
Lemma slice_be ip a : Forall byte ip -> length ip = 16%nat -> fromSlice6 (Some ip) = Some a <-> wfu a /\ num a = be ip.
Proof.
  intros F L. unfold fromSlice6, uint128FromBytes. rewrite L. cbn [N.of_nat N.eqb Pos.of_succ_nat Pos.succ Pos.eqb negb].
  destruct (fromBytes6_be _ L F) as [W' E']. split.
  - intros X. match type of X with Some ?u = Some _ => assert (Y : a = u) by congruence end. rewrite Y. auto.
  - intros [Ha E]. f_equal. apply num_inj; auto. congruence.
Qed.
Theorem C47_prefix_exact : forall s p,
  PrefixFromString6 s = Some p <->
  wfu (paddr6 p) /\ plen6 p <= 128 /\
  exists t d, ipv6_text t (num (paddr6 p)) /\ digit_string d (plen6 p) /\ s = t ++ #"/" ++ d.
Proof.
  intros s p. split.
  - unfold PrefixFromString6, ParseCIDR. destruct (cut_at "/" s) as [[t d]|] eqn:C; [|discriminate]. apply cut_at_inv in C. destruct C as [-> _].
    destruct (parseIPv4 t) as [ip|] eqn:P4.
    + destruct (dtoi d) as [[n i]|]; [|discriminate]. destruct (negb _ || _) eqn:B; [discriminate|]. apply orb_false_iff in B. destruct B as [_ B].
      change (8 * 4) with 32 in *. apply N.ltb_ge in B. unfold PrefixFromNetIPNet6. rewrite Size_CIDRMask by auto. discriminate.
    + destruct (parseIPv6 t) as [ip|] eqn:P; [|discriminate]. destruct (dtoi d) as [[n i]|] eqn:D; [|discriminate].
      destruct (Nat.eqb i (length d)) eqn:L; [|discriminate]. apply Nat.eqb_eq in L. subst i. cbn [negb orb]. change (8 * 16) with 128.
      destruct (128 <? n) eqn:B; [discriminate|]. apply N.ltb_ge in B. destruct (parseIPv6_bytes t ip P) as [F L].
      unfold PrefixFromNetIPNet6. rewrite Size_CIDRMask by auto. cbn [N.eqb Pos.eqb negb].
      destruct (fromSlice6 (Some ip)) as [a|] eqn:S6; [|discriminate]. apply slice_be in S6; auto. destruct S6 as [Ha E]. cbn [option_map].
      rewrite N.mod_small by lia. intros H. assert (p = mkPrefix6 a n) as -> by congruence. cbn [paddr6 plen6].
      split; [exact Ha|]. split; [exact B|]. exists t, d. split; [rewrite E; apply text_read; exact P|]. split; [apply dtoi_digits_inv; exact D|reflexivity].
  - intros (Ha & Hl & t & d & T & D & ->). unfold PrefixFromString6, ParseCIDR. change (#"/") with ["/"%char]. cbn [app].
    rewrite cut_at_app by exact (text_noslash t _ T). rewrite (text_not4 t _ T). destruct (read_text t _ T) as (ip & P & E). rewrite P.
    rewrite (dtoi_digits d (plen6 p)) by (try exact D; unfold big; lia). rewrite Nat.eqb_refl. cbn [negb orb]. change (8 * 16) with 128.
    assert (128 <? plen6 p = false) as -> by (apply N.ltb_ge; exact Hl).
    unfold PrefixFromNetIPNet6. rewrite Size_CIDRMask by auto. cbn [N.eqb Pos.eqb negb].
    assert (F6 : fromSlice6 (Some ip) = Some (paddr6 p)) by (apply slice_be; [apply (parseIPv6_bytes t ip P)|apply (parseIPv6_bytes t ip P)|auto]).
    rewrite F6. cbn [option_map]. rewrite N.mod_small by lia. destruct p; reflexivity.
Qed.

(* ================= C45: the IPv6 text ================= *)

Theorem C45_ipv6_canonical : forall a, wfu a -> ~ v4_mapped (num a) -> rfc5952 (num a) (Address_String6 a).
Proof. exact text6_rfc. Qed.

(* different addresses have different texts, the v4-mapped ones included *)
Theorem C45_text_injective :
  (forall a b, a < 2 ^ 32 -> b < 2 ^ 32 -> Address_String4 a = Address_String4 b -> a = b) /\
  (forall a b, wfu a -> wfu b -> Address_String6 a = Address_String6 b -> a = b).
Proof.
  split.
  - intros a b Ha Hb E. pose proof (text4_address a Ha) as X. rewrite E, text4_address in X by exact Hb. congruence.
  - intros a b Ha Hb E.
    assert (D : forall a, v4_mapped (num a) \/ ~ v4_mapped (num a)).
    { intros c. unfold v4_mapped. destruct (N.eq_dec (num c / 2 ^ 32) 65535); auto. }
    assert (X : forall a b, wfu a -> wfu b -> v4_mapped (num a) -> ~ v4_mapped (num b) -> Address_String6 a <> Address_String6 b).
    { clear a b Ha Hb E. intros a b Ha Hb M N E. pose proof (colon6 b [] Hb N) as C. rewrite app_nil_r, <- E, (mapped_text a Ha M) in C.
      rewrite colon4 in C by (apply no_colon4; apply N.mod_lt; discriminate). discriminate. }
    destruct (D a) as [Ma|Na], (D b) as [Mb|Nb].
    + rewrite (mapped_text a Ha Ma), (mapped_text b Hb Mb) in E. apply num_inj; auto.
      assert (E' : num a mod 2 ^ 32 = num b mod 2 ^ 32).
      { pose proof (text4_address (num a mod 2 ^ 32) ltac:(apply N.mod_lt; discriminate)) as T.
        rewrite E, text4_address in T by (apply N.mod_lt; discriminate). congruence. }
      unfold v4_mapped in *. rewrite (N.div_mod (num a) (2 ^ 32)), (N.div_mod (num b) (2 ^ 32)) by discriminate. congruence.
    + exfalso. exact (X a b Ha Hb Ma Nb E).
    + exfalso. exact (X b a Hb Ha Mb Na (eq_sym E)).
    + pose proof (text6_address a Ha Na) as T. rewrite E, text6_address in T by assumption. congruence.
Qed.

(* ================= C46: masks, ranges, sets ================= *)

Lemma mask_not_mapped n : n <= 128 -> ~ v4_mapped (ones_then_zeros 128 n).
Proof.
  intros Hn M. unfold v4_mapped in M.
  pose proof (small_all (fun n => negb (ones_then_zeros 128 n / 2 ^ 32 =? 65535)) 129 ltac:(vm_compute; reflexivity) n ltac:(change (N.of_nat 129) with 129; lia)) as X.
  cbv beta in X. rewrite M in X. discriminate.
Qed.

(* the text of a mask is that of the address with the same bits; ipv6 never
   writes one as an IPv4 address *)
Theorem C46_mask_text :
  (forall n, n <= 32 -> Mask_String4 (ones_then_zeros 32 n) = quad (ones_then_zeros 32 n)) /\
  (forall m n, wfu m -> n <= 128 -> num m = ones_then_zeros 128 n ->
     rfc5952 (ones_then_zeros 128 n) (Mask_String6 m)).
Proof.
  split.
  - intros n Hn. apply text4_quad. apply otz_lt. exact Hn.
  - intros m n Hm Hn E. pose proof (mask_not_mapped n Hn) as M. rewrite <- E in *. unfold Mask_String6. destruct m as [h l].
    apply text6_rfc; assumption.
Qed.

(* the characters of the text of an address *)
Definition addr_char (c : ascii) : Prop := hex_digit c <> None \/ c = ":"%char \/ c = "."%char.
Lemma dec_hex c : dec_digit c <> None -> hex_digit c <> None.
Proof. unfold dec_digit, hex_digit. destruct ((48 <=? ord c) && (ord c <=? 57)); [discriminate|congruence]. Qed.
Lemma addr_chars4 a : a < 2 ^ 32 -> Forall addr_char (Address_String4 a).
Proof. intros Ha. eapply Forall_impl; [|apply string4_chars; exact Ha]. intros c [X| ->]; [left; apply dec_hex; exact X|right; right; reflexivity]. Qed.
Lemma addr_chars6 a : wfu a -> Forall addr_char (Address_String6 a).
Proof.
  intros Ha. destruct (N.eq_dec (num a / 2 ^ 32) 65535) as [M|M].
  - rewrite (mapped_text a Ha M). apply addr_chars4. apply N.mod_lt. discriminate.
  - destruct (string6_chars a Ha M) as (F & _). eapply Forall_impl; [|exact F]. intros c [X| ->]; [left; exact X|right; left; reflexivity].
Qed.
Lemma not_addr_char c s : Forall addr_char s -> hex_digit c = None -> c <> ":"%char -> c <> "."%char -> ~ In c s.
Proof. intros F H1 H2 H3 I0. rewrite Forall_forall in F. destruct (F _ I0) as [X|[X|X]]; congruence. Qed.
Lemma cut_inj (c : ascii) (a b a' b' : str) : ~ In c a -> ~ In c a' -> a ++ c :: b = a' ++ c :: b' -> a = a' /\ b = b'.
Proof.
  intros H H' E. pose proof (cut_at_app c a b H) as X. rewrite E, cut_at_app in X by exact H'. injection X as -> ->. auto.
Qed.

Theorem C46_range_text :
  (forall r, wf_range 32 r -> Range_String4 r = #"[" ++ quad (rfirst r) ++ #"," ++ quad (rlast r) ++ #"]") /\
  (forall r q, wf_range 32 r -> wf_range 32 q -> Range_String4 r = Range_String4 q -> r = q) /\
  (forall r, Range_String6 r = #"[" ++ Address_String6 (rfirst6 r) ++ #"," ++ Address_String6 (rlast6 r) ++ #"]") /\
  (forall r q, wfr6 r -> wfr6 q -> Range_String6 r = Range_String6 q -> r = q).
Proof.
  destruct C45_text_injective as [I4 I6].
  split; [|split; [|split]].
  - intros r [H1 H2]. unfold Range_String4. rewrite !text4_quad by lia. reflexivity.
  - intros r q [H1 H2] [H3 H4] E. unfold Range_String4 in E. cbn [app] in E. apply (f_equal (@tl ascii)) in E. cbn [tl] in E.
    apply cut_inj in E; try (apply not_addr_char; [apply addr_chars4; lia|reflexivity|discriminate|discriminate]).
    destruct E as [E1 E2]. apply I4 in E1; try lia.
    apply cut_inj in E2; try (apply not_addr_char; [apply addr_chars4; lia|reflexivity|discriminate|discriminate]).
    destruct E2 as [E2 _]. apply I4 in E2; try lia. destruct r, q; cbn in *; congruence.
  - reflexivity.
  - intros r q [H1 H2] [H3 H4] E. unfold Range_String6 in E. cbn [app] in E. apply (f_equal (@tl ascii)) in E. cbn [tl] in E.
    apply cut_inj in E; try (apply not_addr_char; [apply addr_chars6; assumption|reflexivity|discriminate|discriminate]).
    destruct E as [E1 E2]. apply I6 in E1; auto.
    apply cut_inj in E2; try (apply not_addr_char; [apply addr_chars6; assumption|reflexivity|discriminate|discriminate]).
    destruct E2 as [E2 _]. apply I6 in E2; auto. destruct r, q; cbn in *; congruence.
Qed.

(* the text of a prefix of a set; the model of sets keeps addresses as numbers *)
Definition text4 (p : prefix) : str := Prefix_String4 p.
Definition text6 (p : prefix) : str := Prefix_String6 (mkPrefix6 (of_num (paddr p)) (plen p)).

Lemma walk_text {A} (f : prefix -> A -> A) l st : until_false (fun p st => (f p st, true)) l st = (fold_left (fun st p => f p st) l st, true).
Proof. revert st. induction l as [|p l IH]; intros st; cbn [until_false fold_left]; auto. Qed.
Lemma fold_comma (tx : prefix -> str) l : forall b, l <> [] ->
  fst (fold_left (fun (st : str * bool) p => ((fst st ++ (if snd st then #", " else [])) ++ tx p, true)) l (b, true)) =
  b ++ #", " ++ comma_list (map tx l).
Proof.
  induction l as [|p l IH]; intros b Ne; [congruence|]. cbn [fold_left map comma_list]. destruct l as [|q l].
  - cbn [fold_left fst map]. rewrite <- app_assoc. reflexivity.
  - rewrite IH by discriminate. cbn [map]. rewrite <- !app_assoc. reflexivity.
Qed.

(* Set.String is the list, in brackets, of the prefixes that WalkPrefixes
   reports (C26_walk_prefixes: the list stored s), in that order *)
Theorem C46_set_text : forall W peq (tx : prefix -> str) s, ip_width W -> pointer_eq peq -> set_value W s ->
  Set_String W peq tx s = Ok (#"[" ++ comma_list (map tx (stored s)) ++ #"]").
Proof.
  intros W peq tx s IPW P Hs. unfold Set_String. rewrite (C26_walk_prefixes W IPW) by assumption.
  set (f := fun p (st : str * bool) => ((fst st ++ (if snd st then #", " else [])) ++ tx p, true)).
  assert (E : forall l st, until_false (fun p '(builder, comma) => (((builder ++ (if comma : bool then #", " else [])) ++ tx p, true), true)) l st =
     (fold_left (fun st p => f p st) l st, true)).
  { induction l as [|p l IH]; intros [b c]; [reflexivity|]. cbn [until_false fold_left]. rewrite IH. reflexivity. }
  rewrite E. cbn [bind]. f_equal. rewrite app_assoc. change ["]"%char] with #"]". f_equal. destruct (stored s) as [|p l]; [reflexivity|]. cbn [fold_left]. unfold f at 2. cbn [fst snd].
  destruct l as [|q l]; [reflexivity|]. unfold f. rewrite (fold_comma tx (q :: l)) by discriminate. cbn [map]. reflexivity.
Qed.

Lemma comma_inj l : forall m, Forall (fun s => s <> [] /\ ~ In ","%char s) l -> Forall (fun s => s <> [] /\ ~ In ","%char s) m ->
  comma_list l = comma_list m -> l = m.
Proof.
  assert (CUT : forall x y l, ~ In ","%char x -> cut_at ","%char (comma_list (x :: y :: l)) = Some (x, " "%char :: comma_list (y :: l))).
  { intros x y l0 H. cbn [comma_list]. apply cut_at_app. exact H. }
  assert (NO : forall x, ~ In ","%char x -> cut_at ","%char x = None).
  { intros x H. destruct (cut_at "," x) as [[a b]|] eqn:E; [|reflexivity]. apply cut_at_inv in E. destruct E as [-> _]. exfalso. apply H.
    apply in_or_app. right. left. reflexivity. }
  induction l as [|x l IH]; intros m Fl Fm E.
  - destruct m as [|y m]; [reflexivity|]. exfalso. inversion Fm as [|? ? [Hy _] _]; subst. destruct y; [congruence|]. destruct m; discriminate.
  - inversion Fl as [|? ? [Hx Cx] Fl']; subst. destruct m as [|y m].
    { exfalso. destruct x; [congruence|]. destruct l; discriminate. }
    inversion Fm as [|? ? [Hy Cy] Fm']; subst. destruct l as [|x2 l], m as [|y2 m].
    + cbn in E. congruence.
    + exfalso. pose proof (CUT y y2 m Cy) as X. rewrite <- E in X. cbn [comma_list] in X. rewrite NO in X by exact Cx. discriminate.
    + exfalso. pose proof (CUT x x2 l Cx) as X. rewrite E in X. cbn [comma_list] in X. rewrite NO in X by exact Cy. discriminate.
    + pose proof (CUT x x2 l Cx) as X. rewrite E, CUT in X by exact Cy. injection X as Ex Er. subst y. f_equal. apply IH; auto.
Qed.

Lemma bracket_inj (a b : str) : #"[" ++ a ++ #"]" = #"[" ++ b ++ #"]" -> a = b.
Proof. intros H. apply app_inv_head in H. apply app_inv_tail in H. exact H. Qed.
Lemma map_inj_in {A B} (f : A -> B) (P : A -> Prop) l : forall m, (forall x y, P x -> P y -> f x = f y -> x = y) ->
  Forall P l -> Forall P m -> map f l = map f m -> l = m.
Proof.
  induction l as [|x l IH]; intros [|y m] Inj Fl Fm E; try discriminate; [reflexivity|].
  inversion Fl; inversion Fm; subst. injection E as E1 E2. f_equal; auto.
Qed.

(* sets with equal texts store the same prefixes, hence are Equal and have the
   same addresses *)
Lemma texts4_ok p : wf_prefix 32 p -> text4 p <> [] /\ ~ In ","%char (text4 p).
Proof.
  intros [Ha Hl]. unfold text4, Prefix_String4. split; [intros E; apply app_eq_nil in E; destruct E as [_ E]; discriminate|].
  intros I0. apply in_app_or in I0. destruct I0 as [I0|I0].
  - revert I0. apply not_addr_char; [apply addr_chars4; exact Ha|reflexivity|discriminate|discriminate].
  - cbn [app] in I0. destruct I0 as [X|I0]; [discriminate|]. pose proof (fmt_chars (plen p) ltac:(lia)) as F. rewrite Forall_forall in F.
    apply (F _ I0). reflexivity.
Qed.
Lemma text4_inj p q : wf_prefix 32 p -> wf_prefix 32 q -> text4 p = text4 q -> p = q.
Proof. intros Hp Hq E. pose proof (text4_prefix p Hp) as X. unfold text4 in E. rewrite E, text4_prefix in X by exact Hq. congruence. Qed.
Lemma texts6_ok p : wf_prefix 128 p -> text6 p <> [] /\ ~ In ","%char (text6 p).
Proof.
  intros [Ha Hl]. unfold text6, Prefix_String6. cbn [paddr6 plen6]. split; [intros E; apply app_eq_nil in E; destruct E as [_ E]; discriminate|].
  intros I0. apply in_app_or in I0. destruct I0 as [I0|I0].
  - revert I0. apply not_addr_char; [apply addr_chars6; apply of_num_wf; exact Ha|reflexivity|discriminate|discriminate].
  - cbn [app] in I0. destruct I0 as [X|I0]; [discriminate|]. pose proof (fmt_chars (plen p) ltac:(lia)) as F. rewrite Forall_forall in F.
    apply (F _ I0). reflexivity.
Qed.
Lemma text6_inj p q : wf_prefix 128 p -> wf_prefix 128 q -> text6 p = text6 q -> p = q.
Proof.
  intros [Ha Hl] [Hb Hm] E. unfold text6, Prefix_String6 in E. cbn [paddr6 plen6 app] in E. apply cut_inj in E;
    try (apply not_addr_char; [apply addr_chars6; apply of_num_wf; assumption|reflexivity|discriminate|discriminate]).
  destruct E as [E1 E2]. apply (proj2 C45_text_injective) in E1; try (apply of_num_wf; assumption).
  assert (E3 : paddr p = paddr q) by (rewrite <- (num_of_num (paddr p)), <- (num_of_num (paddr q)); congruence).
  pose proof (dtoi_fmt (plen p) [] ltac:(lia) I) as D. rewrite app_nil_r, E2 in D.
  pose proof (dtoi_fmt (plen q) [] ltac:(lia) I) as D'. rewrite app_nil_r in D'. assert (E4 : plen p = plen q) by congruence.
  destruct p, q; cbn in *; congruence.
Qed.

Theorem C46_set_text_determines :
  (forall peq peq' s t x, pointer_eq peq -> pointer_eq peq' -> set_value 32 s -> set_value 32 t ->
     Set_String 32 peq text4 s = Ok x -> Set_String 32 peq' text4 t = Ok x ->
     stored s = stored t /\ forall a, mem 32 s a <-> mem 32 t a) /\
  (forall peq peq' s t x, pointer_eq peq -> pointer_eq peq' -> set_value 128 s -> set_value 128 t ->
     Set_String 128 peq text6 s = Ok x -> Set_String 128 peq' text6 t = Ok x ->
     stored s = stored t /\ forall a, mem 128 s a <-> mem 128 t a).
Proof.
  assert (G : forall W tx, ip_width W -> (forall p, wf_prefix W p -> tx p <> [] /\ ~ In ","%char (tx p)) ->
     (forall p q, wf_prefix W p -> wf_prefix W q -> tx p = tx q -> p = q) ->
     forall peq peq' s t x, pointer_eq peq -> pointer_eq peq' -> set_value W s -> set_value W t ->
     Set_String W peq tx s = Ok x -> Set_String W peq' tx t = Ok x ->
     stored s = stored t /\ forall a, mem W s a <-> mem W t a).
  { intros W tx IPW OK INJ peq peq' s t x P P' Hs Ht E E'. rewrite C46_set_text in E, E' by assumption.
    assert (E0 : comma_list (map tx (stored s)) = comma_list (map tx (stored t))) .
    { assert (OKI : forall a b : str, Ok a = Ok b -> a = b) by (intros a b X; injection X; auto).
      apply bracket_inj. apply OKI. rewrite <- E' in E. exact E. }
    destruct (C26_minimal W IPW s Hs) as (Fs & _). destruct (C26_minimal W IPW t Ht) as (Ft & _).
    assert (FM : forall l, Forall (wf_prefix W) l -> Forall (fun s => s <> [] /\ ~ In ","%char s) (map tx l)).
    { intros l F. apply Forall_map. eapply Forall_impl; [|exact F]. exact OK. }
    apply comma_inj in E0; auto. apply (map_inj_in tx (wf_prefix W)) in E0; auto.
    split; [exact E0|]. intros a. unfold mem. rewrite E0. tauto. }
  split; [apply (G 32 text4 (or_introl eq_refl) texts4_ok text4_inj)|apply (G 128 text6 (or_intror eq_refl) texts6_ok text6_inj)].
Qed.

(* ================= the hypotheses are met; literals ================= *)
Example C43_ex : quad 0xC0000201 = #"192.0.2.1" /\ AddressFromString4 #"192.0.2.1" = Some 0xC0000201 /\
  AddressFromString4 #"192.0.2.01" = None /\ AddressFromString4 #"192.0.2" = None /\ AddressFromString4 #" 192.0.2.1" = None /\
  PrefixFromString4 #"192.0.2.1/024" = Some (mkPrefix 0xC0000201 24) /\ PrefixFromString4 #"192.0.2.1" = None /\
  ~ In ":"%char #"192.0.2.1" /\ digit_string #"024" 24.
Proof.
  do 7 (split; [vm_compute; reflexivity|]). split; [vm_compute; intuition discriminate|].
  split; [discriminate|]. exists [0; 2; 4]. repeat split; repeat constructor.
Qed.
(* strings with a colon: ipv4 takes the text of a v4-mapped address, so "without a
   colon" cannot be dropped from C43_ipv4_address_exact *)
Example C43_mapped_accepted : AddressFromString4 #"::ffff:192.0.2.1" = Some 0xC0000201 /\
  AddressFromString4 #"::ffff:c000:201" = Some 0xC0000201 /\ #"::ffff:c000:201" <> quad 0xC0000201 /\
  PrefixFromString4 #"::ffff:192.0.2.1/120" = None.
Proof. repeat split; try (vm_compute; reflexivity). discriminate. Qed.
Example C44_ex : let a := mkU 0x20010db800000000 0x0000000000000001 in let m := mkU 0 0xffffc0000201 in
  wfu a /\ ~ v4_mapped (num a) /\ Address_String6 a = #"2001:db8::1" /\ AddressFromString6 #"2001:db8::1" = Some a /\
  AddressFromString6 #"2001:DB8:0:0::0.0.0.1" = Some a /\
  wfu m /\ v4_mapped (num m) /\ Address_String6 m = #"192.0.2.1" /\ AddressFromString6 #"192.0.2.1" = None /\
  valid_dyn (Addr6 a) /\ ~ dyn_mapped (Addr6 a).
Proof. cbv zeta. repeat split; try (vm_compute; reflexivity); vm_compute; discriminate. Qed.
Example C46_ex :
  Range_String4 (mkRange 0xC0000201 0xC0000210) = #"[192.0.2.1,192.0.2.16]" /\
  Mask_String4 (ones_then_zeros 32 24) = #"255.255.255.0" /\
  Mask_String6 (of_num (ones_then_zeros 128 35)) = #"ffff:ffff:e000::" /\
  match setI 32 (fun _ _ => false) (Some (RangeSet (mkRange 0xC0000201 0xC0000210))) with
  | Ok s => Set_String 32 (fun _ _ => false) text4 s = Ok #"[192.0.2.1/32, 192.0.2.2/31, 192.0.2.4/30, 192.0.2.8/29, 192.0.2.16/32]"
  | _ => False
  end.
Proof. vm_compute. repeat split; reflexivity. Qed.

(* the grammar has such a text in it, with upper case, leading zeros, :: and a
   dotted quad; and does not have one with two :: *)
Example C47_text_ex :
  ipv6_text #"2001:0DB8::192.0.2.1" 0x20010db80000000000000000c0000201 /\
  AddressFromString6 #"2001:0DB8::192.0.2.1" = Some (mkU 0x20010db800000000 0xc0000201) /\
  (forall a, ~ ipv6_text #"1::2::3" a) /\
  (exists p, PrefixFromString6 #"::ffff:192.0.2.0/120" = Some p /\ num (paddr6 p) = 0xffffc0000200 /\ plen6 p = 120).
Proof.
  assert (HX : forall c d, hex_digit c = Some d -> is_hex c d) by (intros; apply hex_digit_iff; assumption).
  split; [|split; [vm_compute; reflexivity|split]].
  - change 0x20010db80000000000000000c0000201 with ((0x2001 * 2 ^ (16 * N.of_nat 1) + 0x0db8) * 2 ^ (16 * N.of_nat (8 - 2)) + 0xc0000201).
    apply (it_both #"2001:0DB8" 2 (0x2001 * 2 ^ (16 * N.of_nat 1) + 0x0db8) #"192.0.2.1" 2 0xc0000201).
    + apply (hg_cons #"2001" 0x2001 #"0DB8" 1 0x0db8); [|apply hg_one].
      * split; [discriminate|]. split; [reflexivity|]. exists [2; 0; 0; 1]. split; [repeat constructor; apply HX; reflexivity|reflexivity].
      * split; [discriminate|]. split; [reflexivity|]. exists [0; 13; 11; 8]. split; [repeat constructor; apply HX; reflexivity|reflexivity].
    + change #"192.0.2.1" with (quad 0xc0000201). apply lg_quad. reflexivity.
    + cbn; lia.
  - intros a T. destruct (read_text _ _ T) as (ip & P & _). vm_compute in P. discriminate P.
  - eexists. split; [vm_compute; reflexivity|]. split; reflexivity.
Qed.
