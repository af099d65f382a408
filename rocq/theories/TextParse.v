(* TextParse.v - what the parsers return, for every string; proofs. *)
From Verif Require Export TextCanon.
From Coq Require Import Arith Lia ZifyBool ZifyNat ZifyN.

Lemma net_IPv4_bytes a b c d : byte a -> byte b -> byte c -> byte d ->
  Forall byte (net_IPv4 [a; b; c; d]) /\ length (net_IPv4 [a; b; c; d]) = 16%nat.
Proof. intros. split; [repeat constructor; assumption|reflexivity]. Qed.

Lemma split_group n : n <= 65535 -> Forall byte [n / 256; n mod 256].
Proof.
  intros H. pose proof (N.mod_lt n 256 ltac:(discriminate)). assert (n / 256 < 256) by (apply N.div_lt_upper_bound; lia).
  repeat constructor; assumption.
Qed.

Lemma loop6_bytes f : forall acc ell s r, parseIPv6_loop f acc ell s = Some r ->
  Forall byte acc -> (length acc + 2 * f <= 16)%nat -> Forall byte (fst (fst r)) /\ (length (fst (fst r)) <= 16)%nat.
Proof.
  induction f as [|f IH]; intros acc ell s r H F L; cbn [parseIPv6_loop] in H.
  { injection H as <-. cbn [fst]. split; [exact F|lia]. }
  destruct (xtoi s) as [[n c]|]; [|discriminate]. destruct (N.ltb_spec 65535 n) as [|Hn]; [discriminate|].
  pose proof (split_group n Hn) as Fn. set (rest := skipn c s) in *.
  assert (F' : Forall byte (acc ++ [n / 256; n mod 256])) by (apply Forall_app; split; assumption).
  assert (L' : (length (acc ++ [n / 256; n mod 256]%N) + 2 * f <= 16)%nat) by (rewrite app_length; cbn [length]; lia).
  destruct (match rest with [] => false | c1 :: _ => (c1 =? ".")%char end).
  - match type of H with context [if ?b then _ else _] => destruct b end; [discriminate|].
    destruct (Nat.ltb_spec 16 (length acc + 4)) as [|G]; [discriminate|].
    destruct (parseIPv4 s) as [ip|] eqn:P; [|discriminate]. injection H as <-. cbn [fst].
    apply parseIPv4_inv in P. destruct P as (b3 & b2 & b1 & b0 & H3 & H2 & H1 & H0 & _ & ->). cbn [net_IPv4 app skipn].
    split; [apply Forall_app; split; [exact F|repeat constructor; assumption]|]. rewrite app_length. cbn [length]. lia.
  - destruct rest as [|c1 [|c2 rest2]].
    + injection H as <-. cbn [fst]. split; [exact F'|lia].
    + destruct (negb (Ascii.eqb c1 ":")); discriminate.
    + destruct (negb (Ascii.eqb c1 ":")); [discriminate|]. destruct (Ascii.eqb c2 ":").
      * destruct ell; [discriminate|]. destruct rest2; [injection H as <-; cbn [fst]; split; [exact F'|lia]|].
        eapply IH; eauto.
      * eapply IH; eauto.
Qed.

Lemma firstn_Forall {A} (P : A -> Prop) n l : Forall P l -> Forall P (firstn n l).
Proof. intros H. rewrite <- (firstn_skipn n l) in H. apply Forall_app in H. apply H. Qed.
Lemma skipn_Forall {A} (P : A -> Prop) n l : Forall P l -> Forall P (skipn n l).
Proof. intros H. rewrite <- (firstn_skipn n l) in H. apply Forall_app in H. apply H. Qed.
Lemma repeat_bytes k : Forall byte (repeat 0 k).
Proof. induction k; constructor; auto. reflexivity. Qed.

Lemma end6_bytes r ip : parseIPv6_end r = Some ip -> Forall byte (fst (fst r)) -> (length (fst (fst r)) <= 16)%nat ->
  Forall byte ip /\ length ip = 16%nat.
Proof.
  destruct r as [[acc ell] s]. cbn [fst]. unfold parseIPv6_end. intros H F L. destruct s; [|discriminate].
  destruct (Nat.ltb_spec (length acc) 16) as [G|G].
  - destruct ell as [e|]; [|discriminate]. remember (16 - length acc)%nat as k eqn:K. injection H as <-. split.
    + apply Forall_app. split; [apply firstn_Forall; exact F|]. apply Forall_app. split; [apply repeat_bytes|apply skipn_Forall; exact F].
    + rewrite !app_length, firstn_length, repeat_length, skipn_length. lia.
  - destruct ell; [discriminate|]. injection H as <-. split; [exact F|lia].
Qed.

Lemma parseIPv6_bytes s ip : parseIPv6 s = Some ip -> Forall byte ip /\ length ip = 16%nat.
Proof.
  assert (GO : forall ell s ip, match parseIPv6_loop 8 [] ell s with Some r => parseIPv6_end r | None => None end = Some ip ->
     Forall byte ip /\ length ip = 16%nat).
  { intros ell s0 ip0 H. destruct (parseIPv6_loop 8 [] ell s0) as [r|] eqn:E; [|discriminate].
    destruct (loop6_bytes 8 [] ell s0 r E ltac:(constructor) ltac:(cbn; lia)) as [F L]. eapply end6_bytes; eauto. }
  unfold parseIPv6. destruct s as [|c0 [|c1 s]]; try apply GO.
  destruct (Ascii.eqb c0 ":" && Ascii.eqb c1 ":"); [|apply GO]. destruct s; [|apply GO].
  intros [= <-]. split; [apply (repeat_bytes 16)|reflexivity].
Qed.

Lemma ParseIP_bytes s ip : ParseIP s = Some ip -> Forall byte ip /\ length ip = 16%nat.
Proof.
  unfold ParseIP. assert (X : forall r, ParseIP_scan s r = Some ip -> Forall byte ip /\ length ip = 16%nat); [|apply X].
  induction r as [|c r IH]; cbn [ParseIP_scan]; [discriminate|]. destruct (Ascii.eqb c ".").
  - intros H. apply parseIPv4_inv in H. destruct H as (b3 & b2 & b1 & b0 & H3 & H2 & H1 & H0 & _ & ->). apply net_IPv4_bytes; assumption.
  - destruct (Ascii.eqb c ":"); [apply parseIPv6_bytes|apply IH].
Qed.

(* the 16 bytes of a v4-mapped address *)
Lemma To4_mapped p b : length p = 16%nat -> Forall byte p -> To4 p = Some b ->
  Forall byte b /\ length b = 4%nat /\ v4_mapped (be p) /\ be b = be p mod 2 ^ 32.
Proof.
  intros L F T.
  assert (M : v4_mapped (be p)).
  { unfold v4_mapped. destruct (N.eq_dec (be p / 2 ^ 32) 0xffff) as [?|X]; [assumption|]. exfalso.
    assert (T' : To4 p = None) by (apply To4_16; assumption). congruence. }
  unfold To4 in T. rewrite L in T. cbn [N.of_nat N.eqb Pos.of_succ_nat Pos.succ Pos.eqb andb] in T.
  match type of T with context [if ?b then _ else _] => destruct b end; [|discriminate]. assert (T' : b = skipn 12 p) by congruence. clear T. subst b.
  split; [apply skipn_Forall; exact F|]. split; [rewrite skipn_length, L; reflexivity|]. split; [exact M|].
  rewrite <- (firstn_skipn 12 p) at 2. rewrite be_app. assert (L4 : length (skipn 12 p) = 4%nat) by (rewrite skipn_length; lia).
  pose proof (be_lt _ (skipn_Forall byte 12 p F)) as B. unfold nlen in *. rewrite L4 in *. change (8 * N.of_nat 4) with 32 in *.
  apply (N.mod_unique _ _ (be (firstn 12 p))); [exact B|lia].
Qed.

(* what AddressFromString of each family returns in terms of ParseIP *)
Lemma from4_parse s a : AddressFromString4 s = Some a <->
  exists ip, ParseIP s = Some ip /\ v4_mapped (be ip) /\ a = be ip mod 2 ^ 32.
Proof.
  unfold AddressFromString4. split.
  - destruct (ParseIP s) as [ip|] eqn:P; [|discriminate]. destruct (ParseIP_bytes s ip P) as [F L].
    destruct (To4 ip) as [b|] eqn:T; [|discriminate]. destruct (To4_mapped ip b L F T) as (Fb & Lb & M & E).
    do 4 (destruct b as [|? b]; [discriminate|]). destruct b; [|discriminate]. expand.
    rewrite fromNetIP4_bytes by assumption. intros [= <-]. exists ip. rewrite E. auto.
  - intros (ip & P & M & ->). rewrite P. destruct (ParseIP_bytes s ip P) as [F L].
    destruct (To4 ip) as [b|] eqn:T; [|exfalso; apply To4_16 in T; auto].
    destruct (To4_mapped ip b L F T) as (Fb & Lb & _ & E).
    do 4 (destruct b as [|? b]; [discriminate|]). destruct b; [|discriminate]. expand.
    rewrite fromNetIP4_bytes by assumption. rewrite E. reflexivity.
Qed.
Lemma from6_parse s a : AddressFromString6 s = Some a <->
  wfu a /\ ~ v4_mapped (num a) /\ exists ip, ParseIP s = Some ip /\ num a = be ip.
Proof.
  unfold AddressFromString6. split.
  - destruct (ParseIP s) as [ip|] eqn:P; [|discriminate]. destruct (ParseIP_bytes s ip P) as [F L].
    destruct (To4 ip) as [b|] eqn:T; [discriminate|]. apply To4_16 in T; auto.
    unfold fromSlice6, uint128FromBytes. rewrite L. cbn [N.of_nat N.eqb Pos.of_succ_nat Pos.succ Pos.eqb negb].
    destruct (fromBytes6_be _ L F) as [W' E'].
    match goal with |- Some ?u = Some _ -> _ => intros X; assert (Y : a = u) by congruence; clear X; subst a end. rewrite E'. split; [exact W'|]. split; [exact T|]. exists ip. auto.
  - intros (Ha & M & ip & P & E). rewrite P. destruct (ParseIP_bytes s ip P) as [F L]. rewrite E in M.
    assert (To4 ip = None) as -> by (apply To4_16; auto).
    unfold fromSlice6, uint128FromBytes. rewrite L. cbn [N.of_nat N.eqb Pos.of_succ_nat Pos.succ Pos.eqb negb].
    destruct (fromBytes6_be _ L F) as [W' E']. f_equal. apply num_inj; auto. congruence.
Qed.

(* the text of a v4-mapped address is the dotted quad of its low 32 bits *)
Lemma mapped_text a : wfu a -> v4_mapped (num a) -> Address_String6 a = Address_String4 (num a mod 2 ^ 32).
Proof.
  intros Ha M. destruct (be_toBytes6 a Ha) as (F & L & E). unfold Address_String6, IP_String.
  destruct (To4 (ToNetIP6 a)) as [b|] eqn:T.
  - destruct (To4_mapped _ b L F T) as (Fb & Lb & _ & E4). rewrite E in E4. rewrite <- E4.
    do 4 (destruct b as [|? b]; [discriminate|]). destruct b; [|discriminate]. expand.
    symmetry. apply dotted_of_bytes; assumption.
  - exfalso. apply To4_16 in T; auto. apply T. rewrite E. exact M.
Qed.

