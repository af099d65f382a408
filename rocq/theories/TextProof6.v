(* TextProof6.v - the IPv6 text form: parsing inverts printing; proofs. *)
From Verif Require Export TextProof.
From Coq Require Import Arith Lia ZifyBool ZifyNat ZifyN.

(* ---- one group ---- *)
Ltac nlz := cbn [no_leading_zeros]; repeat match goal with |- context [match ?x with 0 => _ | N.pos _ => _ end] => destruct x eqn:?; try lia end; reflexivity.
Lemma land15 v : N.land v 15 = v mod 16.
Proof. change 15 with (N.ones 4). rewrite N.land_ones. reflexivity. Qed.
Lemma wshr_div g k : k < 32 -> wshr 32 g k = g / 2 ^ k.
Proof.
  intros H. unfold wshr. assert (32 <=? k = false) as -> by (apply N.leb_gt; exact H). apply N.shiftr_div_pow2.
Qed.

Lemma appendHex_digits g : group g ->
  exists hs, appendHex g = map hexDigit hs /\ Forall (fun d => d < 16) hs /\ hs <> [] /\ horner 16 hs 0 = g /\
             hs = no_leading_zeros [g / 16 ^ 3 mod 16; g / 16 ^ 2 mod 16; g / 16 mod 16; g mod 16].
Proof.
  intros Hg. unfold group in Hg. unfold appendHex. destruct (N.eqb_spec g 0) as [->|Hz].
  { exists [0]. split; [reflexivity|]. split; [constructor; [lia|constructor]|]. split; [discriminate|]. split; reflexivity. }
  cbn [appendHex_loop]. change (7 * 4) with 28. change (6 * 4) with 24. change (5 * 4) with 20. change (4 * 4) with 16.
  change (3 * 4) with 12. change (2 * 4) with 8. change (1 * 4) with 4. change (0 * 4) with 0.
  rewrite !wshr_div by lia. rewrite !land15.
  assert (Z : forall k, 16 <= k -> g / 2 ^ k = 0).
  { intros k Hk. apply N.div_small. assert (2 ^ 16 <= 2 ^ k) by (apply N.pow_le_mono_r; lia). change (2 ^ 16) with 65536 in *. lia. }
  change (16 ^ 3) with (2 ^ 12). change (16 ^ 2) with (2 ^ 8). change (g / 16) with (g / 2 ^ 4).
  rewrite (Z 28), (Z 24), (Z 20), (Z 16) by lia. cbn [N.ltb N.compare app].
  set (a := g / 2 ^ 12). set (b := g / 2 ^ 8). set (c := g / 2 ^ 4). 
  assert (g / 2 ^ 0 = g) as -> by (change (2 ^ 0) with 1; apply N.div_1_r).
  assert (Ea : a = b / 16) by (unfold a, b; rewrite N.div_div by discriminate; reflexivity).
  assert (Eb : b = c / 16) by (unfold b, c; rewrite N.div_div by discriminate; reflexivity).
  assert (Ec : c = g / 16) by reflexivity.
  assert (La : a < 16) by (unfold a; apply N.div_lt_upper_bound; [discriminate|exact Hg]).
  pose proof (N.div_mod b 16 ltac:(discriminate)) as Db. rewrite <- Ea in Db.
  pose proof (N.div_mod c 16 ltac:(discriminate)) as Dc. rewrite <- Eb in Dc.
  pose proof (N.div_mod g 16 ltac:(discriminate)) as Dg. rewrite <- Ec in Dg.
  pose proof (N.mod_lt b 16 ltac:(discriminate)) as Mb. pose proof (N.mod_lt c 16 ltac:(discriminate)) as Mc.
  pose proof (N.mod_lt g 16 ltac:(discriminate)) as Mg.
  assert (a mod 16 = a) as -> by (apply N.mod_small; exact La).
  clearbody a b c. clear Ea Eb Ec Z.
  set (b' := b mod 16) in *. set (c' := c mod 16) in *. set (g' := g mod 16) in *. clearbody b' c' g'.
  assert (0 <? g = true) as -> by (apply N.ltb_lt; lia).
  destruct (N.ltb_spec 0 a) as [Pa|Pa].
  { assert (0 <? b = true) as -> by (apply N.ltb_lt; lia). assert (0 <? c = true) as -> by (apply N.ltb_lt; lia).
    exists [a; b'; c'; g']. split; [reflexivity|]; split; [auto|]; split; [discriminate|]; split; [unfold horner; cbn [fold_left]; lia|nlz]. }
  destruct (N.ltb_spec 0 b) as [Pb|Pb].
  { assert (0 <? c = true) as -> by (apply N.ltb_lt; lia).
    exists [b'; c'; g']. split; [reflexivity|]; split; [auto|]; split; [discriminate|]; split; [unfold horner; cbn [fold_left]; lia|nlz]. }
  destruct (N.ltb_spec 0 c) as [Pc|Pc].
  { exists [c'; g']. split; [reflexivity|]; split; [auto|]; split; [discriminate|]; split; [unfold horner; cbn [fold_left]; lia|nlz]. }
  exists [g']. split; [reflexivity|]; split; [auto|]; split; [discriminate|]; split; [unfold horner; cbn [fold_left]; lia|nlz].
Qed.

Lemma hexDigit_hex d : d < 16 -> hex_digit (hexDigit d) <> None.
Proof. intros H. rewrite hex_hexDigit by exact H. discriminate. Qed.
Lemma appendHex_chars g : group g -> Forall (fun c => hex_digit c <> None) (appendHex g).
Proof.
  intros H. destruct (appendHex_digits g H) as (hs & -> & F & _). apply Forall_forall. intros c Hc.
  apply in_map_iff in Hc. destruct Hc as (d & <- & Hd). rewrite Forall_forall in F. apply hexDigit_hex. auto.
Qed.
Lemma appendHex_cons g : group g -> exists c s, appendHex g = c :: s /\ hex_digit c <> None.
Proof.
  intros H. pose proof (appendHex_chars g H) as F. destruct (appendHex_digits g H) as (hs & E & _ & Ne & _).
  destruct (appendHex g) as [|c s]; [destruct hs; [congruence|discriminate]|]. inversion F; subst. eauto.
Qed.
Lemma xtoi_hex g rest : group g -> stops hex_digit rest -> xtoi (appendHex g ++ rest) = Some (g, length (appendHex g)).
Proof.
  intros H S. destruct (appendHex_digits g H) as (hs & -> & F & Ne & E & _). unfold xtoi.
  rewrite (toi_app hex_digit 16 hexDigit 16); auto using hex_hexDigit; try lia.
  - rewrite E, map_length. reflexivity.
  - rewrite E. unfold group in H. unfold big. lia.
  - destruct hs; [congruence|cbn [length]; lia].
Qed.

(* ---- the parsing loop ---- *)
Definition gbytes (gs : list N) : list N := flat_map (fun n => [n / 256; n mod 256]) gs.
Definition jt (gs : list N) : str := flat_map (fun g => ":"%char :: appendHex g) gs.
Definition jc (gs : list N) : str := match gs with [] => [] | g :: gs' => appendHex g ++ jt gs' end.
Lemma gbytes_length gs : length (gbytes gs) = (2 * length gs)%nat.
Proof. induction gs; cbn [gbytes flat_map length app] in *; [reflexivity|]. unfold gbytes in IHgs. cbn [length]. lia. Qed.

Lemma hex_not_colon c : hex_digit c <> None -> Ascii.eqb c ":" = false.
Proof. intros H. destruct (Ascii.eqb c ":") eqn:E; [|reflexivity]. apply eqb_ascii in E. subst. exfalso. apply H. reflexivity. Qed.

Lemma group_le g : group g -> 65535 <? g = false.
Proof. unfold group. intros H. apply N.ltb_ge. lia. Qed.

Lemma step_end f acc ell g : group g ->
  parseIPv6_loop (S f) acc ell (appendHex g) = Some (acc ++ [g / 256; g mod 256], ell, []).
Proof.
  intros H. cbn [parseIPv6_loop]. pose proof (xtoi_hex g [] H I) as X. rewrite app_nil_r in X.
  rewrite X, group_le, skipn_all by exact H. reflexivity.
Qed.
Lemma step_next f acc ell g c r : group g -> Ascii.eqb c ":" = false ->
  parseIPv6_loop (S f) acc ell (appendHex g ++ ":"%char :: c :: r) =
  parseIPv6_loop f (acc ++ [g / 256; g mod 256]) ell (c :: r).
Proof.
  intros H Hc. cbn [parseIPv6_loop]. rewrite xtoi_hex, group_le, skip_app by (try exact H; reflexivity).
  change (Ascii.eqb ":" ".") with false. change (Ascii.eqb ":" ":") with true. cbn [negb]. rewrite Hc. reflexivity.
Qed.
Lemma step_ell f acc g r : group g ->
  parseIPv6_loop (S f) acc None (appendHex g ++ ":"%char :: ":"%char :: r) =
  let acc' := acc ++ [g / 256; g mod 256] in
  match r with [] => Some (acc', Some (length acc'), []) | _ => parseIPv6_loop f acc' (Some (length acc')) r end.
Proof.
  intros H. cbn [parseIPv6_loop]. rewrite xtoi_hex, group_le, skip_app by (try exact H; reflexivity). reflexivity.
Qed.

Lemma jc_cons2 g g' gs : jc (g :: g' :: gs) = appendHex g ++ ":"%char :: jc (g' :: gs).
Proof. reflexivity. Qed.
Lemma jc_head g gs : group g -> exists c s, jc (g :: gs) = c :: s /\ hex_digit c <> None.
Proof. intros H. destruct (appendHex_cons g H) as (c & s & E & Hc). unfold jc. rewrite E. cbn [app]. eauto. Qed.

Lemma loop_jc gs : forall f acc ell, gs <> [] -> Forall group gs -> (length gs <= f)%nat ->
  parseIPv6_loop f acc ell (jc gs) = Some (acc ++ gbytes gs, ell, []).
Proof.
  induction gs as [|g gs IH]; intros f acc ell Ne F L; [congruence|].
  inversion F as [|? ? Hg F']; subst. destruct f as [|f]; [cbn in L; lia|]. cbn [length] in L.
  destruct gs as [|g' gs].
  - unfold jc, jt. cbn [flat_map]. rewrite app_nil_r, step_end by exact Hg. reflexivity.
  - rewrite jc_cons2. inversion F' as [|? ? Hg' _]; subst. destruct (jc_head g' gs Hg') as (c & s & E & Hc).
    rewrite E, step_next, <- E by auto using hex_not_colon. rewrite IH by (auto; try discriminate; lia).
    unfold gbytes. cbn [flat_map]. rewrite <- app_assoc. reflexivity.
Qed.

Lemma loop_jc_ell gs gs2 : forall f acc, gs <> [] -> Forall group gs -> Forall group gs2 -> (length gs + length gs2 <= f)%nat ->
  parseIPv6_loop f acc None (jc gs ++ ":"%char :: ":"%char :: jc gs2) =
  Some (acc ++ gbytes gs ++ gbytes gs2, Some (length (acc ++ gbytes gs)), []).
Proof.
  induction gs as [|g gs IH]; intros f acc Ne F F2 L; [congruence|].
  inversion F as [|? ? Hg F']; subst. destruct f as [|f]; [cbn in L; lia|]. cbn [length] in L.
  destruct gs as [|g' gs].
  - unfold jc at 1, jt. cbn [flat_map]. rewrite app_nil_r, step_ell by exact Hg. cbv zeta.
    destruct gs2 as [|g2 gs2].
    + cbn [jc]. unfold gbytes. cbn [flat_map app]. reflexivity.
    + destruct (jc (g2 :: gs2)) as [|c s] eqn:E.
      { inversion F2 as [|? ? Hg2 _]; subst. destruct (jc_head g2 gs2 Hg2) as (c & s & E' & _). congruence. }
      rewrite <- E. rewrite loop_jc by (auto; try discriminate; cbn [length] in *; lia).
      unfold gbytes at 2 3. cbn [flat_map]. rewrite <- app_assoc, app_nil_r. reflexivity.
  - rewrite jc_cons2, <- app_assoc. cbn [app]. inversion F' as [|? ? Hg' _]; subst. destruct (jc_head g' gs Hg') as (c & s & E & Hc).
    pose proof (IH f (acc ++ [g / 256; g mod 256]) ltac:(discriminate) F' F2 ltac:(cbn [length] in *; lia)) as IH'.
    rewrite E in IH' |- *. cbn [app] in IH' |- *. rewrite step_next by auto using hex_not_colon.
    rewrite IH'. unfold gbytes. cbn [flat_map]. rewrite <- !app_assoc. reflexivity.
Qed.

(* ---- the printing loop ---- *)
Lemma skipn_nth (gs : list N) i : (i < length gs)%nat -> skipn i gs = nth i gs 0 :: skipn (S i) gs.
Proof.
  revert i. induction gs as [|g gs IH]; intros [|i] H; cbn [length] in H; try lia; [reflexivity|].
  cbn [skipn nth]. apply IH. lia.
Qed.

Lemma skip_skip (gs : list N) : forall a b, skipn b (skipn a gs) = skipn (a + b) gs.
Proof. induction gs as [|g gs IH]; intros [|a] b; cbn [skipn Nat.add]; auto. apply skipn_nil. Qed.

Lemma print_tail f gs e : forall i, (0 < i)%nat -> (fst e < Z.of_nat i)%Z -> (length gs <= f + i)%nat ->
  print_groups f gs e i = jt (skipn i gs).
Proof.
  induction f as [|f IH]; intros i H0 He L; cbn [print_groups].
  - rewrite skipn_all2 by lia. reflexivity.
  - destruct (Nat.leb_spec (length gs) i) as [G|G].
    + rewrite skipn_all2 by lia. reflexivity.
    + assert ((Z.of_nat i =? fst e)%Z = false) as -> by (apply Z.eqb_neq; lia).
      assert (Nat.ltb 0 i = true) as -> by (apply Nat.ltb_lt; lia).
      rewrite IH by lia. rewrite (skipn_nth gs i G). unfold jt. cbn [flat_map app]. reflexivity.
Qed.
Lemma print_all f gs : (length gs <= f)%nat -> print_groups f gs (-1, -1)%Z 0 = jc gs.
Proof.
  intros L. destruct f as [|f]; cbn [print_groups].
  - destruct gs; [reflexivity|cbn in L; lia].
  - destruct gs as [|g gs]; [reflexivity|]. cbn [length Nat.leb fst Z.of_nat Z.eqb Nat.ltb nth app].
    rewrite print_tail by (cbn [fst length] in *; lia). reflexivity.
Qed.
Lemma print_mid f gs i0 j0 : (i0 < j0)%nat -> (j0 <= length gs)%nat ->
  forall i, (i <= i0)%nat -> (length gs <= f + i)%nat ->
  print_groups f gs (Z.of_nat i0, Z.of_nat j0) i =
  (if Nat.eqb i 0 then jc else jt) (firstn (i0 - i) (skipn i gs)) ++ ":"%char :: ":"%char :: jc (skipn j0 gs).
Proof.
  intros Hij Hj. induction f as [|f IH]; intros i Hi L; [lia|]. cbn [print_groups fst snd].
  destruct (Nat.leb_spec (length gs) i) as [G|G]; [lia|].
  destruct (Z.eqb_spec (Z.of_nat i) (Z.of_nat i0)) as [E|E].
  - apply Nat2Z.inj in E. subst i0. rewrite Nat.sub_diag. cbn [firstn].
    assert ((if Nat.eqb i 0 then jc else jt) [] = []) as -> by (destruct (Nat.eqb i 0); reflexivity). cbn [app].
    rewrite Nat2Z.id. destruct (Nat.leb_spec (length gs) j0) as [G'|G'].
    + rewrite skipn_all2 by lia. reflexivity.
    + rewrite (skipn_nth gs j0 G'). unfold jc. rewrite print_tail by (cbn [fst]; lia). reflexivity.
  - assert (i < i0)%nat as Hlt by lia. rewrite IH by lia. cbn [Nat.eqb].
    rewrite (skipn_nth gs i G). replace (i0 - i)%nat with (S (i0 - S i)) by lia. cbn [firstn].
    destruct i as [|i]; cbn [Nat.eqb Nat.ltb Nat.leb app]; unfold jc at 2; unfold jt; cbn [flat_map app];
      rewrite <- !app_assoc; reflexivity.
Qed.

(* ---- the run of zeros ---- *)
Definition okrun (gs : list N) (e : Z * Z) : Prop :=
  e = (-1, -1)%Z \/ exists i j, e = (Z.of_nat i, Z.of_nat j) /\ (i < j)%nat /\ (j <= length gs)%nat /\
                          firstn (j - i) (skipn i gs) = repeat 0 (j - i).
Lemma run_end_spec gs : forall i, exists k, run_end gs i = (i + k)%nat /\ (k <= length gs)%nat /\ firstn k gs = repeat 0 k.
Proof.
  induction gs as [|g gs IH]; intros i; cbn [run_end].
  - exists O. cbn. rewrite Nat.add_0_r. auto.
  - destruct g as [|q].
    + destruct (IH (S i)) as (k & -> & L & E). exists (S k). cbn [firstn repeat length]. rewrite E. repeat split; [lia|lia].
    + exists O. cbn. rewrite Nat.add_0_r. repeat split; lia.
Qed.
Lemma longest_ok f gs : forall i best, okrun gs best -> okrun gs (longest f gs i best).
Proof.
  induction f as [|f IH]; intros i [e0 e1] H; cbn [longest]; [exact H|].
  destruct (Nat.leb_spec (length gs) i) as [G|G]; [exact H|].
  destruct (run_end_spec (skipn i gs) i) as (k & -> & L & E). rewrite skipn_length in L.
  destruct (Nat.ltb_spec i (i + k)) as [Q|Q]; cbn [andb]; [|apply IH; exact H].
  destruct (e1 - e0 <? Z.of_nat (i + k - i))%Z; apply IH; [|exact H].
  right. exists i, (i + k)%nat. replace (i + k - i)%nat with k by lia. repeat split; auto; lia.
Qed.
Lemma ellipsis_ok gs : okrun gs (ellipsis gs).
Proof.
  unfold ellipsis. pose proof (longest_ok 8 gs 0 (-1, -1)%Z (or_introl eq_refl)) as H.
  destruct (longest 8 gs 0 (-1, -1)%Z) as [e0 e1]. destruct (e1 - e0 <=? 1)%Z; [left; reflexivity|exact H].
Qed.
Lemma ellipsis_two gs i j : ellipsis gs = (Z.of_nat i, Z.of_nat j) -> (2 <= j - i)%nat.
Proof.
  unfold ellipsis. destruct (longest 8 gs 0 (-1, -1)%Z) as [e0 e1]. destruct (e1 - e0 <=? 1)%Z eqn:E; intros [= ? ?]; lia.
Qed.

(* the two forms of the text of eight groups *)
Lemma print_cases gs : length gs = 8%nat ->
  print_groups 8 gs (ellipsis gs) 0 = jc gs \/
  exists gs1 k gs2, gs = gs1 ++ repeat 0 k ++ gs2 /\ (2 <= k)%nat /\
    print_groups 8 gs (ellipsis gs) 0 = jc gs1 ++ ":"%char :: ":"%char :: jc gs2.
Proof.
  intros L. destruct (ellipsis_ok gs) as [E|(i & j & E & H1 & H2 & H3)].
  - left. rewrite E. apply print_all. lia.
  - right. exists (firstn i gs), (j - i)%nat, (skipn j gs). split; [|split].
    + rewrite <- H3. rewrite <- (firstn_skipn i gs) at 1. f_equal.
      rewrite <- (firstn_skipn (j - i) (skipn i gs)) at 1. f_equal. rewrite skip_skip. f_equal. lia.
    + apply (ellipsis_two gs). exact E.
    + rewrite E, print_mid by lia. cbn [Nat.eqb skipn]. rewrite Nat.sub_0_r. reflexivity.
Qed.

Lemma gbytes_app a b : gbytes (a ++ b) = gbytes a ++ gbytes b.
Proof. apply flat_map_app. Qed.
Lemma gbytes_repeat k : gbytes (repeat 0 k) = repeat 0 (2 * k).
Proof.
  induction k as [|k IH]; [reflexivity|]. cbn [repeat]. change (gbytes (0 :: repeat 0 k)) with ([0; 0] ++ gbytes (repeat 0 k)).
  rewrite IH. replace (2 * S k)%nat with (S (S (2 * k))) by lia. reflexivity.
Qed.

Lemma parseIPv6_print gs : length gs = 8%nat -> Forall group gs ->
  parseIPv6 (print_groups 8 gs (ellipsis gs) 0) = Some (gbytes gs).
Proof.
  intros L F.
  assert (G : forall c s, hex_digit c <> None ->
     parseIPv6 (c :: s) = match parseIPv6_loop 8 [] None (c :: s) with Some r => parseIPv6_end r | None => None end).
  { intros c s Hc. unfold parseIPv6. destruct s; [reflexivity|]. rewrite (hex_not_colon c Hc). reflexivity. }
  destruct (print_cases gs L) as [->|(gs1 & k & gs2 & E & Hk & ->)].
  - destruct gs as [|g gs]; [discriminate|]. inversion F as [|? ? Hg _]; subst.
    destruct (jc_head g gs Hg) as (c & s & E & Hc). rewrite E, G, <- E by exact Hc.
    rewrite loop_jc by (first [discriminate|assumption|cbn [length] in *; lia]). cbn [app]. unfold parseIPv6_end.
    rewrite gbytes_length, L. reflexivity.
  - rewrite E in F. apply Forall_app in F. destruct F as [F1 F]. apply Forall_app in F. destruct F as [_ F2].
    assert (LL : (length gs1 + k + length gs2 = 8)%nat) by (rewrite E in L; rewrite !app_length, repeat_length in L; lia).
    assert (FIN : forall gs1 gs2, (length gs1 + k + length gs2 = 8)%nat ->
       parseIPv6_end (gbytes gs1 ++ gbytes gs2, Some (length (gbytes gs1)), []) = Some (gbytes (gs1 ++ repeat 0 k ++ gs2))).
    { clear -Hk. intros gs1 gs2 LL. unfold parseIPv6_end. rewrite app_length, !gbytes_length.
      assert (Nat.ltb (2 * length gs1 + 2 * length gs2) 16 = true) as -> by (apply Nat.ltb_lt; lia).
      rewrite <- (gbytes_length gs1), firstn_app, firstn_all, Nat.sub_diag, skip_app. cbn [firstn]. rewrite app_nil_r.
      rewrite !gbytes_app, gbytes_repeat. do 3 f_equal. rewrite gbytes_length. f_equal. lia. }
    destruct gs1 as [|g gs1].
    + cbn [jc app]. unfold parseIPv6. rewrite Ascii.eqb_refl. cbn [andb].
      destruct gs2 as [|g2 gs2].
      * cbn [jc]. rewrite E. cbn [app]. rewrite app_nil_r, gbytes_repeat. do 2 f_equal. cbn [length] in LL. lia.
      * inversion F2 as [|? ? Hg _]; subst. destruct (jc_head g2 gs2 Hg) as (c & s & E' & Hc). rewrite E', <- E'.
        rewrite loop_jc by (first [discriminate|assumption|cbn [length] in *; lia]). rewrite <- (FIN [] (g2 :: gs2) LL). reflexivity.
    + inversion F1 as [|? ? Hg _]; subst. destruct (jc_head g gs1 Hg) as (c & s & E' & Hc).
      rewrite E'. cbn [app]. rewrite G by exact Hc.
      pose proof (loop_jc_ell (g :: gs1) gs2 8 [] ltac:(discriminate) F1 F2 ltac:(lia)) as P. rewrite E' in P. cbn [app] in P.
      rewrite P. exact (FIN (g :: gs1) gs2 LL).
Qed.

(* ---- groups of bytes ---- *)
Lemma groups_bytes p : Forall byte p -> Nat.Even (length p) -> Forall group (groups p) /\ gbytes (groups p) = p /\ (2 * length (groups p) = length p)%nat.
Proof.
  assert (X : forall n p, (length p <= n)%nat -> Forall byte p -> Nat.Even (length p) ->
     Forall group (groups p) /\ gbytes (groups p) = p /\ (2 * length (groups p) = length p)%nat).
  { clear. induction n as [|n IH]; intros p L F Ev.
    - destruct p; [|cbn in L; lia]. repeat split; constructor.
    - destruct p as [|a [|b p]]; [repeat split; constructor|destruct Ev as [m Em]; cbn in Em; lia|].
      inversion F as [|? ? Ha F1]; subst. inversion F1 as [|? ? Hb F2]; subst. cbn [length] in *.
      assert (Ev' : Nat.Even (length p)) by (destruct Ev as [m Em]; exists (m - 1)%nat; clear -Em; lia).
      destruct (IH p ltac:(lia) F2 Ev') as (A & B & C).
      assert (E : N.lor (wshl 32 a 8) b = a * 256 + b).
      { rewrite wshl32_byte by (try exact Ha; lia). pose proof (lor_digit 0 8 a b Hb) as Q.
        change (2 ^ (0 + 8)) with 256 in Q. change (2 ^ 8) with 256 in Q |- *. change (2 ^ 0) with 1 in Q. rewrite !N.mul_1_r in Q. exact Q. }
      unfold byte in *. cbn [groups]. rewrite E. split; [constructor; [unfold group; lia|exact A]|]. split; [|cbn [length]; lia].
      change (gbytes ((a * 256 + b) :: groups p)) with ([(a * 256 + b) / 256; (a * 256 + b) mod 256] ++ gbytes (groups p)).
      rewrite B. assert ((a * 256 + b) / 256 = a) as -> by (symmetry; apply (N.div_unique _ _ _ b); lia).
      assert ((a * 256 + b) mod 256 = b) as -> by (symmetry; apply (N.mod_unique _ _ a); lia). reflexivity. }
  intros. apply (X (length p)); auto.
Qed.

Lemma To4_16 p : length p = 16%nat -> Forall byte p -> (To4 p = None <-> ~ v4_mapped (be p)).
Proof.
  intros L F. assert (LL := L).
  assert (E : exists q w, p = q ++ w /\ length q = 12%nat /\ length w = 4%nat).
  { exists (firstn 12 p), (skipn 12 p). rewrite firstn_skipn, firstn_length, skipn_length. repeat split; lia. }
  destruct E as (q & w & -> & Lq & Lw). apply Forall_app in F. destruct F as [Fq Fw].
  assert (EV : be (q ++ w) / 2 ^ 32 = be q).
  { rewrite be_app. unfold nlen. rewrite Lw. change (8 * N.of_nat 4) with 32. symmetry. apply (N.div_unique _ _ _ (be w)).
    - pose proof (be_lt w Fw) as B. unfold nlen in B. rewrite Lw in B. exact B.
    - lia. }
  unfold v4_mapped. rewrite EV. unfold To4. rewrite L. cbn [N.of_nat N.eqb Pos.of_succ_nat Pos.succ Pos.eqb andb].
  do 12 (destruct q as [|? q]; [discriminate Lq|]). destruct q; [|discriminate Lq]. cbn [app firstn nth].
  set (q := [n; n0; n1; n2; n3; n4; n5; n6; n7; n8; n9; n10]) in *.
  destruct (forallb (N.eqb 0) [n; n0; n1; n2; n3; n4; n5; n6; n7; n8] && (n9 =? 255) && (n10 =? 255)) eqn:B.
  - split; [discriminate|]. intros H. exfalso. apply H. rewrite !andb_true_iff in B. destruct B as [[B1 B2] B3].
    apply N.eqb_eq in B2, B3. subst. cbn [forallb] in B1. rewrite !andb_true_iff in B1.
    repeat match goal with B : _ /\ _ |- _ => destruct B end.
    repeat match goal with B : (0 =? _) = true |- _ => apply N.eqb_eq in B; subst end. reflexivity.
  - split; [|reflexivity]. intros _ H.
    assert (EQ : q = [0;0;0;0;0;0;0;0;0;0;255;255]).
    { apply be_inj; [exact Fq|repeat constructor|reflexivity|]. rewrite H. reflexivity. }
    unfold q in EQ. injection EQ as -> -> -> -> -> -> -> -> -> -> -> ->. discriminate.
Qed.

(* ---- ipv6 addresses ---- *)
Definition colon_or_hex (c : ascii) : Prop := hex_digit c <> None \/ c = ":"%char.
Lemma jt_chars gs : Forall group gs -> Forall colon_or_hex (jt gs).
Proof.
  intros F. induction F as [|g gs Hg F IH]; [constructor|]. unfold jt. cbn [flat_map]. apply Forall_app. split; [|exact IH].
  constructor; [right; reflexivity|]. eapply Forall_impl; [|apply appendHex_chars; exact Hg]. left. assumption.
Qed.
Lemma jc_chars gs : Forall group gs -> Forall colon_or_hex (jc gs).
Proof.
  intros F. destruct F as [|g gs Hg F]; [constructor|]. unfold jc. apply Forall_app. split; [|apply jt_chars; exact F].
  eapply Forall_impl; [|apply appendHex_chars; exact Hg]. left. assumption.
Qed.

Lemma string6_groups a : wfu a -> ~ v4_mapped (num a) ->
  exists gs, length gs = 8%nat /\ Forall group gs /\ gbytes gs = ToNetIP6 a /\
             Address_String6 a = print_groups 8 gs (ellipsis gs) 0.
Proof.
  intros Ha Hm. destruct (be_toBytes6 a Ha) as (F & L & E).
  assert (To4 (ToNetIP6 a) = None) as T4 by (apply To4_16; auto; rewrite E; exact Hm).
  destruct (groups_bytes (ToNetIP6 a) F) as (A & B & C); [exists 8%nat; exact L|].
  exists (groups (ToNetIP6 a)). unfold Address_String6, IP_String. rewrite T4. split; [lia|auto].
Qed.

(* the text of an address that is not v4-mapped: hexadecimal digits and colons,
   with a colon before which there are only digits *)
Lemma string6_chars a : wfu a -> ~ v4_mapped (num a) ->
  Forall colon_or_hex (Address_String6 a) /\
  exists p r, Address_String6 a = p ++ ":"%char :: r /\ Forall (fun c => hex_digit c <> None) p.
Proof.
  intros Ha Hm. destruct (string6_groups a Ha Hm) as (gs & L & F & _ & ->).
  assert (JC : forall gs s, Forall group gs -> (exists p r, jt (tl gs) ++ s = p ++ ":"%char :: r /\ Forall (fun c => hex_digit c <> None) p) ->
     exists p r, jc gs ++ s = p ++ ":"%char :: r /\ Forall (fun c => hex_digit c <> None) p).
  { intros gs0 s F0 (p & r & E & Fp). destruct gs0 as [|g gs0]; [exists p, r; auto|]. inversion F0; subst. cbn [tl] in E.
    exists (appendHex g ++ p), r. unfold jc. rewrite <- !app_assoc, E. split; [reflexivity|].
    apply Forall_app. split; [apply appendHex_chars; assumption|exact Fp]. }
  destruct (print_cases gs L) as [->|(gs1 & k & gs2 & E & Hk & ->)].
  - split; [apply jc_chars; exact F|]. rewrite <- (app_nil_r (jc gs)). apply JC; [exact F|].
    destruct gs as [|g0 [|g1 gs]]; [discriminate|discriminate|]. cbn [tl]. exists [], (appendHex g1 ++ jt gs ++ []).
    unfold jt. cbn [flat_map app]. rewrite <- !app_assoc. split; [reflexivity|constructor].
  - rewrite E in F. apply Forall_app in F. destruct F as [F1 F]. apply Forall_app in F. destruct F as [_ F2]. split.
    + apply Forall_app. split; [apply jc_chars; exact F1|]. constructor; [right; reflexivity|]. constructor; [right; reflexivity|].
      apply jc_chars; exact F2.
    + apply JC; [exact F1|]. destruct (tl gs1) as [|g gt] eqn:T0; cbn [jt flat_map app].
      * exists [], (":"%char :: jc gs2). auto.
      * exists [], (appendHex g ++ jt gt ++ ":"%char :: ":"%char :: jc gs2). unfold jt. cbn [app]. rewrite <- !app_assoc. auto.
Qed.

Lemma hex_plain c : hex_digit c <> None -> plain c.
Proof. intros H. split; intros ->; apply H; reflexivity. Qed.

Lemma fromSlice6_bytes a : wfu a -> fromSlice6 (Some (ToNetIP6 a)) = Some a.
Proof.
  intros Ha. destruct (be_toBytes6 a Ha) as (F & L & E). unfold fromSlice6, uint128FromBytes. rewrite L.
  cbn [N.of_nat N.eqb Pos.of_succ_nat Pos.succ Pos.eqb negb].
  destruct (fromBytes6_be _ L F) as [W' E']. rewrite E in E'. f_equal. apply num_inj; auto.
Qed.

Lemma text6_address a : wfu a -> ~ v4_mapped (num a) -> AddressFromString6 (Address_String6 a) = Some a.
Proof.
  intros Ha Hm. destruct (string6_chars a Ha Hm) as (_ & p & r & E & Fp).
  assert (P : ParseIP (Address_String6 a) = Some (ToNetIP6 a)).
  { unfold ParseIP. rewrite E at 2. rewrite ParseIP_colon by (eapply Forall_impl; [|exact Fp]; apply hex_plain).
    destruct (string6_groups a Ha Hm) as (gs & L & F & B & ->). rewrite parseIPv6_print, B by assumption. reflexivity. }
  unfold AddressFromString6. rewrite P. destruct (be_toBytes6 a Ha) as (F & L & EB).
  assert (To4 (ToNetIP6 a) = None) as -> by (apply To4_16; auto; rewrite EB; exact Hm).
  apply fromSlice6_bytes. exact Ha.
Qed.

Lemma parseIPv4_nocolon s ip : parseIPv4 s = Some ip -> ~ In ":"%char s.
Proof.
  intros H. apply parseIPv4_inv in H. destruct H as (b3 & b2 & b1 & b0 & H3 & H2 & H1 & H0 & -> & _).
  destruct (dotted_of_bytes b3 b2 b1 b0 H3 H2 H1 H0) as [LT E]. rewrite <- E. apply no_colon4. exact LT.
Qed.

Lemma text6_prefix p : wfu (paddr6 p) -> plen6 p <= 128 -> ~ v4_mapped (num (paddr6 p)) ->
  PrefixFromString6 (Prefix_String6 p) = Some p.
Proof.
  intros Ha Hl Hm. destruct (string6_chars _ Ha Hm) as (FC & q & r & E & Fq).
  assert (NS : ~ In "/"%char (Address_String6 (paddr6 p))).
  { intros I0. rewrite Forall_forall in FC. destruct (FC _ I0) as [X|X]; [apply X; reflexivity|discriminate]. }
  unfold PrefixFromString6, Prefix_String6, ParseCIDR. cbn [app]. rewrite cut_at_app by exact NS.
  assert (parseIPv4 (Address_String6 (paddr6 p)) = None) as ->.
  { destruct (parseIPv4 (Address_String6 (paddr6 p))) as [ip|] eqn:P; [|reflexivity]. exfalso.
    apply parseIPv4_nocolon in P. apply P. rewrite E. apply in_or_app. right. left. reflexivity. }
  assert (parseIPv6 (Address_String6 (paddr6 p)) = Some (ToNetIP6 (paddr6 p))) as ->.
  { destruct (string6_groups _ Ha Hm) as (gs & L & F & B & ->). rewrite parseIPv6_print, B by assumption. reflexivity. }
  pose proof (dtoi_fmt (plen6 p) [] ltac:(lia) I) as D. rewrite app_nil_r in D. rewrite D, Nat.eqb_refl.
  cbn [negb orb]. change (8 * 16) with 128. assert (128 <? plen6 p = false) as -> by (apply N.ltb_ge; exact Hl).
  unfold PrefixFromNetIPNet6. rewrite Size_CIDRMask by auto. cbn [N.eqb Pos.eqb negb].
  rewrite fromSlice6_bytes by exact Ha. cbn [option_map]. rewrite N.mod_small by lia. destruct p; reflexivity.
Qed.
