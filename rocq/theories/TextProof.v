(* TextProof.v - parsing inverts printing; proofs. *)
From Verif Require Export Text TextSpec NetProof.
From Coq Require Import Arith Lia ZifyBool ZifyNat ZifyN.
Arguments N.add : simpl never.
Arguments N.mul : simpl never.
Arguments N.sub : simpl never.

(* a property of all small numbers, by running it *)
Lemma small_all (P : N -> bool) (k : nat) : forallb P (map N.of_nat (seq 0 k)) = true -> forall n, n < N.of_nat k -> P n = true.
Proof.
  intros H n Hn. rewrite forallb_forall in H. apply H. apply in_map_iff. exists (N.to_nat n).
  split; [lia|]. apply in_seq. lia.
Qed.
Definition str_eqb (a b : str) : bool := if list_eq_dec ascii_dec a b then true else false.
Lemma str_eqb_ok a b : str_eqb a b = true <-> a = b.
Proof. unfold str_eqb. destruct (list_eq_dec ascii_dec a b); split; congruence. Qed.

Lemma eqb_ascii a b : Ascii.eqb a b = true <-> a = b.
Proof. apply Ascii.eqb_eq. Qed.

(* ---- digit characters ---- *)
Definition dchar (d : N) : ascii := chr (48 + d).
Lemma dec_dchar d : d < 10 -> dec_digit (dchar d) = Some d.
Proof.
  intros H. pose proof (small_all (fun d => match dec_digit (dchar d) with Some e => e =? d | None => false end) 10 eq_refl d H) as E.
  cbn beta in E. destruct (dec_digit (dchar d)); [|discriminate]. apply N.eqb_eq in E. congruence.
Qed.
Lemma dec_digit_inv c d : dec_digit c = Some d -> d < 10 /\ c = dchar d.
Proof.
  unfold dec_digit, dchar, chr, ord. intros H.
  destruct ((48 <=? N_of_ascii c) && (N_of_ascii c <=? 57)) eqn:E; [|discriminate].
  injection H as <-. apply andb_true_iff in E. destruct E as [E1 E2]. apply N.leb_le in E1, E2.
  split; [lia|]. replace (48 + (N_of_ascii c - 48)) with (N_of_ascii c) by lia. symmetry. apply ascii_N_embedding.
Qed.
Lemma hex_hexDigit d : d < 16 -> hex_digit (hexDigit d) = Some d.
Proof.
  intros H. pose proof (small_all (fun d => match hex_digit (hexDigit d) with Some e => e =? d | None => false end) 16 eq_refl d H) as E.
  cbn beta in E. destruct (hex_digit (hexDigit d)); [|discriminate]. apply N.eqb_eq in E. congruence.
Qed.

(* ---- dtoi, xtoi ---- *)
Definition horner (base : N) (ds : list N) (n : N) : N := fold_left (fun v d => v * base + d) ds n.
Lemma horner_mono base ds n : 1 <= base -> n <= horner base ds n.
Proof.
  intros Hb. revert n. induction ds as [|d ds IH]; intros n; cbn [horner fold_left]; [lia|].
  unfold horner in IH. specialize (IH (n * base + d)). nia.
Qed.

Definition stops (digit : ascii -> option N) (rest : str) : Prop :=
  match rest with [] => True | c :: _ => digit c = None end.

Lemma toi_app digit base (ch : N -> ascii) lim ds rest n i : 1 <= base ->
  (forall d, d < lim -> digit (ch d) = Some d) -> Forall (fun d => d < lim) ds ->
  horner base ds n < big -> stops digit rest -> (0 < i + length ds)%nat ->
  toi digit base (map ch ds ++ rest) n i = Some (horner base ds n, (i + length ds)%nat).
Proof.
  intros Hb Hd F Hh Hs Hi. revert n i Hh Hi. induction F as [|d ds Hd0 F IH]; intros n i Hh Hi.
  - cbn [map app length horner fold_left]. rewrite Nat.add_0_r in *.
    assert (Nat.eqb i 0 = false) as E by (apply Nat.eqb_neq; lia).
    destruct rest as [|c rest]; cbn [toi]; [rewrite E; reflexivity|]. cbn in Hs. rewrite Hs, E. reflexivity.
  - cbn [map app toi]. rewrite (Hd _ Hd0).
    change (horner base (d :: ds) n) with (horner base ds (n * base + d)) in *.
    pose proof (horner_mono base ds (n * base + d) Hb) as M.
    assert (big <=? n * base + d = false) as -> by (apply N.leb_gt; lia).
    rewrite IH by (try assumption; lia). cbn [length]. f_equal. f_equal. lia.
Qed.

(* the converse for decimal numbers *)
Lemma dtoi_inv_gen s : forall n i m c, toi dec_digit 10 s n i = Some (m, c) ->
  exists ds rest, Forall (fun d => d < 10) ds /\ s = map dchar ds ++ rest /\ m = horner 10 ds n /\ c = (i + length ds)%nat /\ stops dec_digit rest
                  /\ (0 < c)%nat.
Proof.
  induction s as [|ch s IH]; intros n i m c H; cbn [toi] in H.
  - destruct (Nat.eqb i 0) eqn:E; [discriminate|]. injection H as <- <-. apply Nat.eqb_neq in E.
    exists [], []. cbn. rewrite Nat.add_0_r. repeat split; auto; lia.
  - destruct (dec_digit ch) as [d|] eqn:D.
    + destruct (big <=? n * 10 + d); [discriminate|]. apply IH in H. destruct H as (ds & rest & F & -> & -> & -> & S & P).
      apply dec_digit_inv in D. destruct D as [D ->]. exists (d :: ds), rest. repeat split; auto.
      cbn [length]. lia.
    + destruct (Nat.eqb i 0) eqn:E; [discriminate|]. injection H as <- <-. apply Nat.eqb_neq in E.
      exists [], (ch :: s). cbn. rewrite Nat.add_0_r. repeat split; auto; lia.
Qed.

(* ---- %d of a byte ---- *)
Definition undigits (s : str) : list N := map (fun c => ord c - 48) s.
Lemma fmt_byte n : n < 256 ->
  exists ds, fmt_d n = map dchar ds /\ Forall (fun d => d < 10) ds /\ ds <> [] /\ horner 10 ds 0 = n /\
             ((1 < length ds)%nat -> hd 0 ds <> 0).
Proof.
  intros H.
  pose proof (small_all (fun n => let ds := undigits (fmt_d n) in
     str_eqb (fmt_d n) (map dchar ds) && forallb (fun d => d <? 10) ds && negb (Nat.eqb (length ds) 0) && (horner 10 ds 0 =? n)
     && (Nat.leb (length ds) 1 || negb (hd 0 ds =? 0))) 256 ltac:(vm_compute; reflexivity) n H) as E.
  cbn beta zeta in E. exists (undigits (fmt_d n)). rewrite !andb_true_iff in E. destruct E as [[[[E1 E2] E3] E4] E5].
  apply str_eqb_ok in E1. split; [exact E1|]. split.
  { apply Forall_forall. intros d Hd. rewrite forallb_forall in E2. apply N.ltb_lt, E2, Hd. }
  split. { intros Z. rewrite Z in E3. discriminate. }
  split; [apply N.eqb_eq, E4|]. intros L. apply orb_true_iff in E5. destruct E5 as [E5|E5].
  - apply Nat.leb_le in E5. lia.
  - apply negb_true_iff, N.eqb_neq in E5. exact E5.
Qed.
Lemma fmt_decimal n : n < 256 -> fmt_d n = decimal n.
Proof.
  intros H. pose proof (small_all (fun n => str_eqb (fmt_d n) (decimal n)) 256 ltac:(vm_compute; reflexivity) n H) as E.
  apply str_eqb_ok. exact E.
Qed.
Lemma skip_app {A} (l m : list A) : skipn (length l) (l ++ m) = m.
Proof. rewrite skipn_app, skipn_all, Nat.sub_diag. reflexivity. Qed.

Lemma dtoi_fmt n rest : n < 256 -> stops dec_digit rest -> dtoi (fmt_d n ++ rest) = Some (n, length (fmt_d n)).
Proof.
  intros H S. destruct (fmt_byte n H) as (ds & -> & F & Ne & E & _). unfold dtoi.
  rewrite (toi_app dec_digit 10 dchar 10); auto using dec_dchar; try lia.
  - rewrite E, map_length. reflexivity.
  - rewrite E. unfold big. lia.
  - destruct ds; [congruence|cbn [length]; lia].
Qed.
Lemma fmt_nonnil n : n < 256 -> fmt_d n <> [].
Proof. intros H. destruct (fmt_byte n H) as (ds & -> & _ & Ne & _). destruct ds; [congruence|discriminate]. Qed.
(* the test for leading zeros *)
Lemma fmt_nozero n rest : n < 256 ->
  (Nat.ltb 1 (length (fmt_d n))) && (match fmt_d n ++ rest with z :: _ => Ascii.eqb z "0"%char | [] => false end) = false.
Proof.
  intros H. destruct (fmt_byte n H) as (ds & -> & F & Ne & E & Z). rewrite map_length.
  destruct (Nat.ltb 1 (length ds)) eqn:L; [|reflexivity]. apply Nat.ltb_lt in L. specialize (Z L).
  destruct ds as [|d ds]; [congruence|]. cbn [map app hd andb] in *. inversion F as [|? ? Hd _]; subst.
  destruct (Ascii.eqb (dchar d) "0"%char) eqn:Q; [|reflexivity]. apply eqb_ascii in Q.
  apply dec_dchar in Hd. rewrite Q in Hd. vm_compute in Hd. congruence.
Qed.

(* one octet *)
Lemma octet k first p n rest : n < 256 -> stops dec_digit rest ->
  parseIPv4_loop (Datatypes.S k) first p ((if first then [] else ["."%char]) ++ fmt_d n ++ rest) =
  parseIPv4_loop k false (p ++ [n]) rest.
Proof.
  intros H S. cbn [parseIPv4_loop]. 
  pose proof (fmt_nonnil n H) as Ne. pose proof (dtoi_fmt n rest H S) as D. pose proof (fmt_nozero n rest H) as Z.
  assert (255 <? n = false) as L by (apply N.ltb_ge; lia).
  assert (fmt_d n ++ rest <> []) as Ne' by (destruct (fmt_d n); [congruence|discriminate]).
  destruct first; cbn [app].
  - destruct (fmt_d n ++ rest) as [|c0 s0] eqn:E; [congruence|]. rewrite D, L, Z. f_equal.
    rewrite <- E. apply skip_app.
  - rewrite Ascii.eqb_refl, D, L, Z, skip_app. reflexivity.
Qed.

Lemma dot_stops r : stops dec_digit ("."%char :: r).
Proof. reflexivity. Qed.

Lemma parseIPv4_dotted a b c d : byte a -> byte b -> byte c -> byte d ->
  parseIPv4 (dotted [a; b; c; d]) = Some (net_IPv4 [a; b; c; d]).
Proof.
  intros Ha Hb Hc Hd. unfold byte in *. change (2 ^ 8) with 256 in *. unfold parseIPv4, dotted.  cbn [app].
  pose proof (octet 3 true [] a) as O1. cbn [app] in O1. rewrite O1 by auto using dot_stops. clear O1.
  pose proof (octet 2 false ([] ++ [a]) b) as O2. cbn [app] in O2 |- *. rewrite O2 by auto using dot_stops.
  pose proof (octet 1 false [a; b] c) as O3. cbn [app] in O3 |- *. rewrite O3 by auto using dot_stops.
  pose proof (octet 0 false [a; b; c] d []) as O4. rewrite app_nil_r in O4. cbn [app] in O4 |- *.
  rewrite O4 by (auto; exact I). reflexivity.
Qed.

(* canonical decimal numbers *)
Lemma canonical ds : Forall (fun d => d < 10) ds -> ds <> [] -> horner 10 ds 0 < 256 ->
  ((1 < length ds)%nat -> hd 0 ds <> 0) -> map dchar ds = fmt_d (horner 10 ds 0).
Proof.
  intros F Ne H Z.
  assert (Q : forall ds, In ds (map (fun n => [n mod 10]) (map N.of_nat (seq 0 10))
             ++ map (fun n => [n / 10; n mod 10]) (map N.of_nat (seq 10 90))
             ++ map (fun n => [n / 100; (n / 10) mod 10; n mod 10]) (map N.of_nat (seq 100 156))) ->
      map dchar ds = fmt_d (horner 10 ds 0)).
  { intros e He. apply str_eqb_ok. revert e He. apply forallb_forall. vm_compute. reflexivity. }
  apply Q. clear Q.
  assert (Hin : forall (f : N -> list N) lo k n, (lo <= n)%N -> n < lo + N.of_nat k -> ds = f n ->
     In ds (map f (map N.of_nat (seq (N.to_nat lo) k)))).
  { intros f lo k n H1 H2 ->. apply in_map. apply in_map_iff. exists (N.to_nat n). split; [lia|]. apply in_seq. lia. }
  destruct ds as [|d1 [|d2 [|d3 [|d4 ds]]]]; [congruence| | | |];
    repeat match goal with F : Forall _ (_ :: _) |- _ => inversion F; subst; clear F end; cbn [length hd] in Z.
  - apply in_or_app. left. apply (Hin _ 0 10%nat d1); try lia. f_equal. symmetry. apply N.mod_small. assumption.
  - apply in_or_app. right. apply in_or_app. left. assert (d1 <> 0) by (apply Z; lia).
    apply (Hin _ 10 90%nat (d1 * 10 + d2)); try lia. f_equal; [|f_equal].
    + apply (N.div_unique _ _ _ d2); lia.
    + apply (N.mod_unique _ _ d1); lia.
  - apply in_or_app. right. apply in_or_app. right. assert (d1 <> 0) by (apply Z; lia).
    cbn in H. apply (Hin _ 100 156%nat ((d1 * 10 + d2) * 10 + d3)); try lia.
    assert (((d1 * 10 + d2) * 10 + d3) / 10 = d1 * 10 + d2) as E by (symmetry; apply (N.div_unique _ _ _ d3); lia).
    rewrite E. f_equal; [|f_equal; [|f_equal]].
    + apply (N.div_unique _ _ _ (d2 * 10 + d3)); lia.
    + apply (N.mod_unique _ _ d1); lia.
    + apply (N.mod_unique _ _ (d1 * 10 + d2)); lia.
  - exfalso. assert (d1 <> 0) by (apply Z; lia). 
    change (horner 10 (d1 :: d2 :: d3 :: d4 :: ds) 0) with (horner 10 ds ((((0 * 10 + d1) * 10 + d2) * 10 + d3) * 10 + d4)) in H.
    pose proof (horner_mono 10 ds ((((0 * 10 + d1) * 10 + d2) * 10 + d3) * 10 + d4) ltac:(lia)). lia.
Qed.

Lemma octet_inv k first p s ip : parseIPv4_loop (Datatypes.S k) first p s = Some ip ->
  exists n rest, n < 256 /\ s = (if first then [] else ["."%char]) ++ fmt_d n ++ rest /\
    parseIPv4_loop k false (p ++ [n]) rest = Some ip.
Proof.
  intros H. cbn [parseIPv4_loop] in H. destruct s as [|c0 s0]; [discriminate|].
  assert (X : exists s, c0 :: s0 = (if first then [] else ["."%char]) ++ s /\
     match dtoi s with
     | Some (n, c) => if 0xFF <? n then None
          else if (Nat.ltb 1 c) && (match s with z :: _ => Ascii.eqb z "0"%char | [] => false end) then None
          else parseIPv4_loop k false (p ++ [n]) (skipn c s)
     | None => None end = Some ip).
  { destruct first; [exists (c0 :: s0); split; [reflexivity|exact H]|].
    destruct (Ascii.eqb c0 "."%char) eqn:E; [|discriminate]. apply eqb_ascii in E. subst. exists s0. split; [reflexivity|exact H]. }
  destruct X as (s & Es & X). rewrite Es. clear H Es c0 s0.
  destruct (dtoi s) as [[n c]|] eqn:D; [|discriminate].
  destruct (255 <? n) eqn:L; [discriminate|]. apply N.ltb_ge in L.
  destruct (_ && _) eqn:Z; [discriminate|].
  apply dtoi_inv_gen in D. destruct D as (ds & rest & F & -> & -> & -> & S & P). cbn [Nat.add] in *.
  exists (horner 10 ds 0), rest. split; [lia|].
  rewrite <- canonical; auto; [| |lia|].
  - split; [reflexivity|]. rewrite <- (map_length dchar ds), skip_app in X. exact X.
  - destruct ds; [cbn in P; lia|discriminate].
  - intros L1. apply andb_false_iff in Z. destruct Z as [Z|Z]; [apply Nat.ltb_ge in Z; lia|].
    destruct ds as [|d ds]; [cbn in P; lia|]. cbn [map app hd] in *. intros ->. discriminate.
Qed.

Lemma parseIPv4_inv s ip : parseIPv4 s = Some ip ->
  exists a b c d, byte a /\ byte b /\ byte c /\ byte d /\ s = dotted [a; b; c; d] /\ ip = net_IPv4 [a; b; c; d].
Proof.
  intros H. unfold parseIPv4 in H.
  apply octet_inv in H. destruct H as (a & r1 & Ha & -> & H).
  apply octet_inv in H. destruct H as (b & r2 & Hb & -> & H).
  apply octet_inv in H. destruct H as (c & r3 & Hc & -> & H).
  apply octet_inv in H. destruct H as (d & r4 & Hd & -> & H).
  cbn [parseIPv4_loop app] in H. destruct r4; [|discriminate]. injection H as <-.
  exists a, b, c, d. unfold byte. change (2 ^ 8) with 256. repeat split; auto.
  unfold dotted. rewrite !app_nil_r. cbn [app]. reflexivity.
Qed.

(* ---- ParseIP ---- *)
Definition plain (c : ascii) : Prop := c <> "."%char /\ c <> ":"%char.
Lemma ParseIP_dot s pre r : Forall plain pre -> ParseIP_scan s (pre ++ "."%char :: r) = parseIPv4 s.
Proof.
  intros F. induction F as [|c pre [H1 H2] F IH]; cbn [app ParseIP_scan]; [reflexivity|].
  destruct (Ascii.eqb c ".") eqn:E; [apply eqb_ascii in E; congruence|].
  destruct (Ascii.eqb c ":") eqn:E'; [apply eqb_ascii in E'; congruence|]. exact IH.
Qed.
Lemma ParseIP_colon s pre r : Forall plain pre -> ParseIP_scan s (pre ++ ":"%char :: r) = parseIPv6 s.
Proof.
  intros F. induction F as [|c pre [H1 H2] F IH]; cbn [app ParseIP_scan]; [reflexivity|].
  destruct (Ascii.eqb c ".") eqn:E; [apply eqb_ascii in E; congruence|].
  destruct (Ascii.eqb c ":") eqn:E'; [apply eqb_ascii in E'; congruence|]. exact IH.
Qed.
Lemma dchar_not d c : d < 10 -> dec_digit c = None -> dchar d <> c.
Proof. intros H E X. rewrite <- X, dec_dchar in E by exact H. discriminate. Qed.
Lemma fmt_chars n : n < 256 -> Forall (fun c => dec_digit c <> None) (fmt_d n).
Proof.
  intros H. destruct (fmt_byte n H) as (ds & -> & F & _). apply Forall_forall. intros c Hc.
  apply in_map_iff in Hc. destruct Hc as (d & <- & Hd). rewrite Forall_forall in F. rewrite dec_dchar by auto. discriminate.
Qed.
Lemma fmt_plain n : n < 256 -> Forall plain (fmt_d n).
Proof.
  intros H. eapply Forall_impl; [|apply fmt_chars; exact H]. intros c Hc. split; intros ->; apply Hc; reflexivity.
Qed.
Lemma ParseIP_dotted a b c d : byte a -> byte b -> byte c -> byte d ->
  ParseIP (dotted [a; b; c; d]) = Some (net_IPv4 [a; b; c; d]).
Proof.
  intros Ha Hb Hc Hd. rewrite <- parseIPv4_dotted by assumption. unfold ParseIP, dotted. cbn [app].
  apply ParseIP_dot, fmt_plain. exact Ha.
Qed.
Lemma To4_net_IPv4 a b c d : To4 (net_IPv4 [a; b; c; d]) = Some [a; b; c; d].
Proof. reflexivity. Qed.

(* ---- ipv4 addresses ---- *)
Lemma bytes4 a : a < 2 ^ 32 -> exists b3 b2 b1 b0, byte b3 /\ byte b2 /\ byte b1 /\ byte b0 /\
  ToNetIP4 a = [b3; b2; b1; b0] /\ be [b3; b2; b1; b0] = a /\ Address_String4 a = dotted [b3; b2; b1; b0].
Proof.
  intros Ha. destruct (be_toBytes4 a Ha) as (F & _ & E). unfold ToNetIP4, Address_String4 in *.
  destruct (toBytes4 a) as [[[b3 b2] b1] b0]. exists b3, b2, b1, b0.
  repeat match goal with F : Forall _ (_ :: _) |- _ => inversion F; subst; clear F end. auto 10.
Qed.
Lemma fromNetIP4_bytes b3 b2 b1 b0 : byte b3 -> byte b2 -> byte b1 -> byte b0 ->
  AddressFromNetIP4 [b3; b2; b1; b0] = Some (be [b3; b2; b1; b0]).
Proof. intros. unfold AddressFromNetIP4. cbn. rewrite AddressFromBytes4_be by assumption. reflexivity. Qed.

Lemma text4_address a : a < 2 ^ 32 -> AddressFromString4 (Address_String4 a) = Some a.
Proof.
  intros Ha. destruct (bytes4 a Ha) as (b3 & b2 & b1 & b0 & H3 & H2 & H1 & H0 & _ & E & ->).
  unfold AddressFromString4. rewrite ParseIP_dotted, To4_net_IPv4, fromNetIP4_bytes, E by assumption. reflexivity.
Qed.

Lemma dotted_of_bytes b3 b2 b1 b0 : byte b3 -> byte b2 -> byte b1 -> byte b0 ->
  be [b3; b2; b1; b0] < 2 ^ 32 /\ Address_String4 (be [b3; b2; b1; b0]) = dotted [b3; b2; b1; b0].
Proof.
  intros H3 H2 H1 H0. assert (F : Forall byte [b3; b2; b1; b0]) by auto.
  pose proof (be_lt _ F) as L. cbn [nlen length] in L. change (2 ^ (8 * nlen [b3; b2; b1; b0])) with (2 ^ 32) in L.
  split; [exact L|]. destruct (bytes4 _ L) as (c3 & c2 & c1 & c0 & G3 & G2 & G1 & G0 & _ & E & ->).
  apply be_inj in E; auto. injection E as -> -> -> ->. reflexivity.
Qed.

(* a string without a colon parses iff it is the text of the address *)
Lemma ParseIP_scan_nocolon s r : ~ In ":"%char r -> ParseIP_scan s r = parseIPv4 s \/ ParseIP_scan s r = None.
Proof.
  induction r as [|c r IH]; intros H; cbn [ParseIP_scan]; [auto|].
  destruct (Ascii.eqb c "."); [auto|]. destruct (Ascii.eqb c ":") eqn:E.
  - apply eqb_ascii in E. exfalso. apply H. left. exact E.
  - apply IH. intros I. apply H. right. exact I.
Qed.
Lemma text4_exact s a : ~ In ":"%char s -> AddressFromString4 s = Some a <-> a < 2 ^ 32 /\ s = Address_String4 a.
Proof.
  intros Hc. split.
  - intros H. unfold AddressFromString4 in H. destruct (ParseIP s) as [ip|] eqn:P; [|discriminate].
    destruct (ParseIP_scan_nocolon s s Hc) as [E|E]; unfold ParseIP in P; rewrite P in E; [|discriminate].
    symmetry in E. apply parseIPv4_inv in E. destruct E as (b3 & b2 & b1 & b0 & H3 & H2 & H1 & H0 & -> & ->).
    rewrite To4_net_IPv4, fromNetIP4_bytes in H by assumption. injection H as <-.
    destruct (dotted_of_bytes b3 b2 b1 b0) as [L E]; auto.
  - intros [Ha ->]. apply text4_address. exact Ha.
Qed.

(* the printed text *)
Lemma text4_quad a : a < 2 ^ 32 -> Address_String4 a = quad a.
Proof.
  intros Ha. destruct (bytes4 a Ha) as (b3 & b2 & b1 & b0 & H3 & H2 & H1 & H0 & _ & E & ->).
  unfold byte in *. change (2 ^ 8) with 256 in *.
  assert (a = ((b3 * 256 + b2) * 256 + b1) * 256 + b0) as -> by (rewrite <- E; unfold be, digits; cbn [fold_left]; lia).
  unfold dotted, quad, lit. cbn [String.list_ascii_of_string].
  change (2 ^ 24) with 16777216. change (2 ^ 16) with 65536. change (2 ^ 8) with 256.
  assert ((((b3 * 256 + b2) * 256 + b1) * 256 + b0) / 16777216 = b3) as ->
    by (symmetry; apply (N.div_unique _ _ _ ((b2 * 256 + b1) * 256 + b0)); lia).
  assert ((((b3 * 256 + b2) * 256 + b1) * 256 + b0) / 65536 = b3 * 256 + b2) as ->
    by (symmetry; apply (N.div_unique _ _ _ (b1 * 256 + b0)); lia).
  assert ((((b3 * 256 + b2) * 256 + b1) * 256 + b0) / 256 = (b3 * 256 + b2) * 256 + b1) as ->
    by (symmetry; apply (N.div_unique _ _ _ b0); lia).
  assert (M : forall x y, y < 256 -> (x * 256 + y) mod 256 = y) by (intros; symmetry; apply (N.mod_unique _ _ x); lia).
  rewrite !M by assumption. rewrite !fmt_decimal by assumption. reflexivity.
Qed.

Lemma string4_chars a : a < 2 ^ 32 -> Forall (fun c => dec_digit c <> None \/ c = "."%char) (Address_String4 a).
Proof.
  intros Ha. destruct (bytes4 a Ha) as (b3 & b2 & b1 & b0 & H3 & H2 & H1 & H0 & _ & _ & ->).
  unfold dotted. assert (D : forall n, byte n -> Forall (fun c => dec_digit c <> None \/ c = "."%char) (fmt_d n)).
  { intros n Hn. eapply Forall_impl; [|apply fmt_chars; exact Hn]. auto. }
  repeat (apply Forall_app; split); auto.
Qed.

(* ---- ParseCIDR ---- *)
Lemma cut_at_app c a b : ~ In c a -> cut_at c (a ++ c :: b) = Some (a, b).
Proof.
  induction a as [|x a IH]; intros H; cbn [app cut_at].
  - rewrite Ascii.eqb_refl. reflexivity.
  - destruct (Ascii.eqb x c) eqn:E; [apply eqb_ascii in E; exfalso; apply H; left; exact E|].
    rewrite IH by (intros I; apply H; right; exact I). reflexivity.
Qed.
Lemma cut_at_inv c s a b : cut_at c s = Some (a, b) -> s = a ++ c :: b /\ ~ In c a.
Proof.
  revert a b. induction s as [|x s IH]; intros a b H; cbn [cut_at] in H; [discriminate|].
  destruct (Ascii.eqb x c) eqn:E.
  - injection H as <- <-. apply eqb_ascii in E. subst. auto.
  - destruct (cut_at c s) as [[a' b']|] eqn:C; [|discriminate]. injection H as <- <-.
    destruct (IH _ _ eq_refl) as [-> N0]. split; [reflexivity|]. intros [I|I]; [|auto].
    subst. rewrite Ascii.eqb_refl in E. discriminate.
Qed.

Lemma Size_CIDR n l : n <= 8 * N.of_nat l -> mask_Size (cidr_bytes l n) = (n, 8 * N.of_nat l).
Proof.
  intros H. destruct (cidr_bytes_spec l n H) as (F & L & E). apply mask_Size_spec; [exact F|]. left.
  unfold nlen. rewrite L. split; [reflexivity|]. split; [exact H|]. rewrite E. symmetry. apply otz. exact H.
Qed.
Lemma Size_CIDRMask n bits : bits = 32 \/ bits = 128 -> n <= bits -> mask_Size (CIDRMask n bits) = (n, bits).
Proof.
  intros Hb Hn. unfold CIDRMask. assert (bits <? n = false) as -> by (apply N.ltb_ge; exact Hn).
  assert (8 * N.of_nat (N.to_nat (bits / 8)) = bits) as E by (destruct Hb as [->| ->]; reflexivity).
  destruct Hb as [->| ->]; cbn [negb orb N.eqb Pos.eqb]; rewrite Size_CIDR; rewrite ?E; auto.
Qed.

Lemma dtoi_digits s n : n < big -> digit_string s n -> dtoi s = Some (n, length s).
Proof.
  intros Hn (Ne & ds & F & -> & ->). unfold dtoi.
  assert (E : fold_left (fun v d => 10 * v + d) ds 0 = horner 10 ds 0).
  { unfold horner. generalize 0. clear. induction ds as [|d ds IH]; intros n; cbn [fold_left]; [reflexivity|].
    rewrite IH. f_equal. lia. }
  rewrite E in *. rewrite <- (app_nil_r (map _ ds)).
  rewrite (toi_app dec_digit 10 dchar 10); auto using dec_dchar; try lia.
  - rewrite app_nil_r, map_length. reflexivity.
  - exact I.
  - destruct ds; [cbn in Ne; congruence|cbn [length]; lia].
Qed.
Lemma dtoi_digits_inv s n : dtoi s = Some (n, length s) -> digit_string s n.
Proof.
  intros H. apply dtoi_inv_gen in H. destruct H as (ds & rest & F & E & -> & L & _ & P). cbn [Nat.add] in L.
  assert (rest = []) as ->.
  { rewrite E, app_length, map_length in L. destruct rest; [reflexivity|cbn [length] in L; lia]. }
  rewrite app_nil_r in E. split; [destruct s; [cbn in P; lia|discriminate]|]. exists ds. split; [exact F|]. split; [exact E|].
  unfold horner. generalize 0. clear. induction ds as [|d ds IH]; intros n; cbn [fold_left]; [reflexivity|].
  rewrite IH. f_equal. lia.
Qed.
Lemma fmt_digits n : n < 256 -> digit_string (fmt_d n) n.
Proof.
  intros H. apply dtoi_digits_inv. pose proof (dtoi_fmt n [] H I) as D. rewrite app_nil_r in D. exact D.
Qed.

Lemma no_slash4 a : a < 2 ^ 32 -> ~ In "/"%char (Address_String4 a).
Proof.
  intros Ha I0. pose proof (string4_chars a Ha) as F. rewrite Forall_forall in F.
  destruct (F _ I0) as [E|E]; [apply E; reflexivity|discriminate].
Qed.
Lemma no_colon4 a : a < 2 ^ 32 -> ~ In ":"%char (Address_String4 a).
Proof.
  intros Ha I0. pose proof (string4_chars a Ha) as F. rewrite Forall_forall in F.
  destruct (F _ I0) as [E|E]; [apply E; reflexivity|discriminate].
Qed.

Lemma digits_no_colon s n : digit_string s n -> ~ In ":"%char s.
Proof.
  intros (_ & ds & F & -> & _) I0. apply in_map_iff in I0. destruct I0 as (d & E & Hd). rewrite Forall_forall in F.
  apply (dchar_not d ":"%char (F _ Hd) eq_refl). exact E.
Qed.

Lemma text4_prefix_digits p t : wf_prefix 32 p -> digit_string t (plen p) ->
  PrefixFromString4 (Address_String4 (paddr p) ++ "/"%char :: t) = Some p.
Proof.
  intros [Ha Hl] D. unfold PrefixFromString4, ParseCIDR. rewrite cut_at_app by (apply no_slash4; exact Ha).
  destruct (bytes4 _ Ha) as (b3 & b2 & b1 & b0 & H3 & H2 & H1 & H0 & _ & E & ->).
  rewrite parseIPv4_dotted by assumption. rewrite (dtoi_digits t (plen p)) by (try exact D; unfold big; lia).
  rewrite Nat.eqb_refl. cbn [negb orb]. change (8 * 4) with 32.
  assert (32 <? plen p = false) as -> by (apply N.ltb_ge; exact Hl).
  unfold PrefixFromNetIPNet4. rewrite Size_CIDRMask by auto. cbn [N.eqb Pos.eqb negb].
  unfold AddressFromNetIP4. rewrite To4_net_IPv4. change (fromSlice4 (Some [b3; b2; b1; b0])) with (AddressFromNetIP4 [b3; b2; b1; b0]).
  rewrite fromNetIP4_bytes, E by assumption. cbn [option_map]. rewrite N.mod_small by lia. destruct p; reflexivity.
Qed.
Lemma text4_prefix p : wf_prefix 32 p -> PrefixFromString4 (Prefix_String4 p) = Some p.
Proof.
  intros Hp. apply (text4_prefix_digits p (fmt_d (plen p)) Hp). apply fmt_digits. destruct Hp. lia.
Qed.

(* parsing 6 with a mask of 128 bits never gives an ipv4 prefix *)
Lemma text4_prefix_exact s p : PrefixFromString4 s = Some p <->
  wf_prefix 32 p /\ exists t, digit_string t (plen p) /\ s = Address_String4 (paddr p) ++ "/"%char :: t.
Proof.
  split.
  - intros H. unfold PrefixFromString4, ParseCIDR in H. destruct (cut_at "/" s) as [[a m]|] eqn:C; [|discriminate].
    apply cut_at_inv in C. destruct C as [-> _].
    destruct (parseIPv4 a) as [ip|] eqn:P.
    + apply parseIPv4_inv in P. destruct P as (b3 & b2 & b1 & b0 & H3 & H2 & H1 & H0 & -> & ->).
      destruct (dtoi m) as [[n i]|] eqn:D; [|discriminate].
      destruct (Nat.eqb i (length m)) eqn:L; [|discriminate]. apply Nat.eqb_eq in L. subst i.
      change (8 * 4) with 32 in H. cbn [negb orb] in H. destruct (32 <? n) eqn:L; [discriminate|]. apply N.ltb_ge in L.
      unfold PrefixFromNetIPNet4 in H. rewrite Size_CIDRMask in H by auto. cbn [N.eqb Pos.eqb negb] in H.
      unfold AddressFromNetIP4 in H. rewrite To4_net_IPv4 in H.
      change (fromSlice4 (Some [b3; b2; b1; b0])) with (AddressFromNetIP4 [b3; b2; b1; b0]) in H.
      rewrite fromNetIP4_bytes in H by assumption. cbn [option_map] in H. injection H as <-.
      destruct (dotted_of_bytes b3 b2 b1 b0) as [LT E]; auto. rewrite N.mod_small by lia.
      split; [split; assumption|]. exists m. cbn [paddr plen]. rewrite E. split; [apply dtoi_digits_inv; exact D|reflexivity].
    + destruct (parseIPv6 a) as [ip|]; [|discriminate]. destruct (dtoi m) as [[n i]|]; [|discriminate].
      destruct (negb (Nat.eqb i (length m)) || (8 * 16 <? n)) eqn:L; [discriminate|].
      apply orb_false_iff in L. destruct L as [_ L]. change (8 * 16) with 128 in *. apply N.ltb_ge in L.
      unfold PrefixFromNetIPNet4 in H. rewrite Size_CIDRMask in H by auto. discriminate.
  - intros (Hp & t & D & ->). apply text4_prefix_digits; assumption.
Qed.
