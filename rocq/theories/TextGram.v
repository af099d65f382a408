(* TextGram.v - the strings that are read as IPv6 addresses are exactly those of
   the grammar in TextSpec.v; proofs. *)
From Verif Require Export TextParse.
From Coq Require Import Arith Lia ZifyBool ZifyNat ZifyN.

Lemma hex_digit_iff c d : hex_digit c = Some d <-> is_hex c d.
Proof.
  split.
  - intros H.
    pose proof (small_all (fun n => match hex_digit (chr n) with
       | Some d => (d <? 16) && (Ascii.eqb (chr n) (hex_char d) || Ascii.eqb (chr n) (hex_char_upper d)) | None => true end)
       256 ltac:(vm_compute; reflexivity) (ord c) (N_ascii_bounded c)) as E.
    cbv beta in E. unfold chr, ord in E. rewrite ascii_N_embedding, H in E. apply andb_true_iff in E. destruct E as [E1 E2].
    apply N.ltb_lt in E1. split; [exact E1|]. apply orb_true_iff in E2. destruct E2 as [E2|E2]; apply eqb_ascii in E2; auto.
  - intros [Hd H].
    pose proof (small_all (fun d => match hex_digit (hex_char d), hex_digit (hex_char_upper d) with Some x, Some y => (x =? d) && (y =? d) | _, _ => false end)
       16 ltac:(vm_compute; reflexivity) d Hd) as E. cbv beta in E.
    destruct (hex_digit (hex_char d)) as [x|] eqn:X; [|discriminate]. destruct (hex_digit (hex_char_upper d)) as [y|] eqn:Y; [|discriminate].
    apply andb_true_iff in E. destruct E as [E1 E2]. apply N.eqb_eq in E1, E2. subst. destruct H as [->| ->]; assumption.
Qed.

Lemma horner16 ds n : horner 16 ds n = fold_left (fun v d => 16 * v + d) ds n.
Proof. revert n. induction ds as [|d ds IH]; intros n; [reflexivity|]. unfold horner in *. cbn [fold_left]. rewrite IH. f_equal. lia. Qed.

Lemma xtoi_gen t ds : Forall2 is_hex t ds -> forall rest n i, horner 16 ds n < big -> stops hex_digit rest -> (0 < i + length ds)%nat ->
  toi hex_digit 16 (t ++ rest) n i = Some (horner 16 ds n, (i + length t)%nat).
Proof.
  induction 1 as [|c d t ds Hc F IH]; intros rest n i Hh Hs Hi.
  - cbn [app length horner fold_left]. cbn [length] in Hi. rewrite Nat.add_0_r in *. assert (Nat.eqb i 0 = false) as E by (apply Nat.eqb_neq; lia).
    destruct rest as [|c rest]; cbn [toi]; [rewrite E; reflexivity|]. cbn in Hs. rewrite Hs, E. reflexivity.
  - cbn [app toi]. apply hex_digit_iff in Hc. rewrite Hc. change (horner 16 (d :: ds) n) with (horner 16 ds (n * 16 + d)) in *.
    pose proof (horner_mono 16 ds (n * 16 + d) ltac:(lia)) as M.
    assert (big <=? n * 16 + d = false) as -> by (apply N.leb_gt; lia).
    rewrite IH by (try assumption; lia). cbn [length]. f_equal. f_equal. lia.
Qed.
Lemma xtoi_text t g rest : hex_text t g -> stops hex_digit rest -> xtoi (t ++ rest) = Some (g, length t).
Proof.
  intros (Ne & Hg & ds & F & E) S. unfold xtoi. rewrite (xtoi_gen t ds F).
  - rewrite horner16, <- E. reflexivity.
  - rewrite horner16, <- E. change (2 ^ 16) with 65536 in Hg. unfold big. lia.
  - exact S.
  - destruct F; [congruence|cbn [length]; lia].
Qed.
Lemma xtoi_inv_gen s : forall n i m c, toi hex_digit 16 s n i = Some (m, c) ->
  exists t ds rest, Forall2 is_hex t ds /\ s = t ++ rest /\ m = horner 16 ds n /\ c = (i + length t)%nat /\ stops hex_digit rest /\ (0 < c)%nat.
Proof.
  induction s as [|ch s IH]; intros n i m c H; cbn [toi] in H.
  - destruct (Nat.eqb i 0) eqn:E; [discriminate|]. injection H as <- <-. apply Nat.eqb_neq in E.
    exists [], [], []. cbn. rewrite Nat.add_0_r. repeat split; auto; lia.
  - destruct (hex_digit ch) as [d|] eqn:D.
    + destruct (big <=? n * 16 + d); [discriminate|]. apply IH in H. destruct H as (t & ds & rest & F & -> & -> & -> & S & P).
      apply hex_digit_iff in D. exists (ch :: t), (d :: ds), rest. repeat split; auto. cbn [length]. lia.
    + destruct (Nat.eqb i 0) eqn:E; [discriminate|]. injection H as <- <-. apply Nat.eqb_neq in E.
      exists [], [], (ch :: s). cbn. rewrite Nat.add_0_r. repeat split; auto; lia.
Qed.
Lemma xtoi_inv s n c : xtoi s = Some (n, c) -> n <= 65535 ->
  exists t rest, hex_text t n /\ s = t ++ rest /\ c = length t /\ stops hex_digit rest.
Proof.
  intros H Hn. apply xtoi_inv_gen in H. destruct H as (t & ds & rest & F & -> & E & -> & S & P). exists t, rest. repeat split; auto.
  - intros ->. cbn in P. lia.
  - change (2 ^ 16) with 65536. lia.
  - exists ds. rewrite horner16 in E. auto.
Qed.

(* the two bytes of a group *)
Definition g2 (g : N) : list N := [g / 256; g mod 256].
Lemma g2_be g : be (g2 g) = g.
Proof. unfold g2. rewrite be_cons. change (2 ^ (8 * nlen [g mod 256])) with 256. change (be [g mod 256]) with (0 * 256 + g mod 256). pose proof (N.div_mod g 256 ltac:(discriminate)). lia. Qed.

Lemma text_head t g : hex_text t g -> exists c t', t = c :: t' /\ hex_digit c <> None.
Proof.
  intros (Ne & _ & ds & F & _). destruct F as [|c d t ds Hc F]; [congruence|]. exists c, t. split; [reflexivity|].
  apply hex_digit_iff in Hc. rewrite Hc. discriminate.
Qed.
Lemma groups_head s n v : hex_groups s n v -> exists c t', s = c :: t' /\ hex_digit c <> None.
Proof. intros H. destruct H as [t g H|t g s n v H _]; apply text_head in H; destruct H as (c & t' & -> & Hc); cbn [app]; eauto. Qed.
Lemma group_ok t g : hex_text t g -> 65535 <? g = false.
Proof. intros (_ & H & _). change (2 ^ 16) with 65536 in H. apply N.ltb_ge. lia. Qed.

(* ---- every text of the grammar is read ---- *)
Lemma one_end f acc ell t g : hex_text t g -> parseIPv6_loop (S f) acc ell t = Some (acc ++ g2 g, ell, []).
Proof.
  intros H. cbn [parseIPv6_loop]. pose proof (xtoi_text t g [] H I) as X. rewrite app_nil_r in X.
  rewrite X, (group_ok t g H), skipn_all. reflexivity.
Qed.
Lemma one_next f acc ell t g c r : hex_text t g -> Ascii.eqb c ":" = false ->
  parseIPv6_loop (S f) acc ell (t ++ ":"%char :: c :: r) = parseIPv6_loop f (acc ++ g2 g) ell (c :: r).
Proof.
  intros H Hc. cbn [parseIPv6_loop]. rewrite (xtoi_text t g _ H), (group_ok t g H), skip_app by reflexivity.
  change (Ascii.eqb ":" ".") with false. change (Ascii.eqb ":" ":") with true. cbn [negb]. rewrite Hc. reflexivity.
Qed.
Lemma one_ell f acc t g r : hex_text t g ->
  parseIPv6_loop (S f) acc None (t ++ ":"%char :: ":"%char :: r) =
  let acc' := acc ++ g2 g in
  match r with [] => Some (acc', Some (length acc'), []) | _ => parseIPv6_loop f acc' (Some (length acc')) r end.
Proof. intros H. cbn [parseIPv6_loop]. rewrite (xtoi_text t g _ H), (group_ok t g H), skip_app by reflexivity. reflexivity. Qed.

(* n groups as bytes *)
Definition gb (bs : list N) (n : nat) (v : N) : Prop := Forall byte bs /\ length bs = (2 * n)%nat /\ be bs = v.
Lemma gb_one g : g < 2 ^ 16 -> gb (g2 g) 1 g.
Proof. intros H. split; [apply split_group; change (2 ^ 16) with 65536 in H; lia|]. split; [reflexivity|apply g2_be]. Qed.
Lemma gb_cons g bs n v : g < 2 ^ 16 -> gb bs n v -> gb (g2 g ++ bs) (S n) (g * 2 ^ (16 * N.of_nat n) + v).
Proof.
  intros H (F & L & E). destruct (gb_one g H) as (F1 & L1 & E1). split; [apply Forall_app; auto|]. split; [rewrite app_length; lia|].
  rewrite be_app, E1, E. unfold nlen. rewrite L. do 3 f_equal. lia.
Qed.

Lemma loop_groups s n v : hex_groups s n v -> exists bs, gb bs n v /\
  (forall f acc ell, (n <= f)%nat -> parseIPv6_loop f acc ell s = Some (acc ++ bs, ell, [])) /\
  (forall f acc r, (n <= f)%nat -> parseIPv6_loop f acc None (s ++ ":"%char :: ":"%char :: r) =
     match r with [] => Some (acc ++ bs, Some (length (acc ++ bs)), []) | _ => parseIPv6_loop (f - n) (acc ++ bs) (Some (length (acc ++ bs))) r end) /\
  (forall f acc ell c r, (n <= f)%nat -> Ascii.eqb c ":" = false -> parseIPv6_loop f acc ell (s ++ ":"%char :: c :: r) =
     parseIPv6_loop (f - n) (acc ++ bs) ell (c :: r)).
Proof.
  induction 1 as [t g H|t g s n v H HG (bs & G & L1 & L2 & L3)].
  - exists (g2 g). split; [apply gb_one; apply H|]. repeat split.
    + intros [|f] acc ell L; [lia|]. apply one_end; exact H.
    + intros [|f] acc r L; [lia|]. rewrite (one_ell f acc t g r H). cbv zeta. replace (S f - 1)%nat with f by lia. reflexivity.
    + intros [|f] acc ell c r L Hc; [lia|]. rewrite (one_next f acc ell t g c r H Hc). replace (S f - 1)%nat with f by lia. reflexivity.
  - exists (g2 g ++ bs). split; [apply gb_cons; [apply H|exact G]|].
    destruct (groups_head s n v HG) as (c0 & s0 & -> & Hc0). apply hex_not_colon in Hc0.
    repeat split; intros [|f] acc; intros; try lia; rewrite <- ?app_assoc; change (#":") with [":"%char]; cbn [app];
      rewrite (fun e => one_next f acc e t g c0 _ H Hc0); rewrite ?app_assoc; cbn [Nat.sub].
    + apply L1. lia.
    + apply (L2 f (acc ++ g2 g) r). lia.
    + apply (L3 f (acc ++ g2 g) ell c r); [lia|assumption].
Qed.

(* the dotted quad inside the loop *)
Lemma xtoi_dec n rest : n < 256 -> stops hex_digit rest -> exists m, xtoi (fmt_d n ++ rest) = Some (m, length (fmt_d n)) /\ m <= 65535.
Proof.
  intros H S. 
  pose proof (small_all (fun n => horner 16 (undigits (fmt_d n)) 0 <=? 65535) 256 ltac:(vm_compute; reflexivity) n H) as B. cbv beta in B. apply N.leb_le in B.
  destruct (fmt_byte n H) as (ds & E & F & Ne & _ & _).
  assert (U : undigits (fmt_d n) = ds).
  { rewrite E. unfold undigits. rewrite map_map. rewrite <- (map_id ds) at 2. apply map_ext_in. intros d Hd.
    rewrite Forall_forall in F. specialize (F d Hd). unfold dchar, ord. rewrite N_ascii_embedding by lia. lia. }
  rewrite U in B. exists (horner 16 ds 0). split; [|exact B]. rewrite E. unfold xtoi.
  rewrite (toi_app hex_digit 16 dchar 10); auto; try lia.
  - rewrite map_length. reflexivity.
  - intros d Hd. pose proof (dec_dchar d Hd) as D. unfold dec_digit, hex_digit in *.
    destruct ((48 <=? ord (dchar d)) && (ord (dchar d) <=? 57)); [exact D|discriminate].
  - unfold big. lia.
  - destruct ds; [congruence|cbn [length]; lia].
Qed.
Lemma loop_quad f acc ell v : v < 2 ^ 32 -> (ell <> None \/ length acc = 12%nat) -> (length acc <= 12)%nat ->
  exists bs, gb bs 2 v /\ parseIPv6_loop (S f) acc ell (quad v) = Some (acc ++ bs, ell, []).
Proof.
  intros Hv He Ha. rewrite <- text4_quad by exact Hv.
  destruct (bytes4 _ Hv) as (b3 & b2 & b1 & b0 & H3 & H2 & H1 & H0 & _ & E & ES). rewrite ES.
  exists [b3; b2; b1; b0]. split; [split; [repeat constructor; assumption|split; [reflexivity|exact E]]|].
  cbn [parseIPv6_loop]. rewrite parseIPv4_dotted by assumption. unfold dotted.
  destruct (xtoi_dec b3 (["."%char] ++ fmt_d b2 ++ ["."%char] ++ fmt_d b1 ++ ["."%char] ++ fmt_d b0) H3 eq_refl) as (m & -> & Hm).
  apply N.ltb_ge in Hm. rewrite Hm, skip_app. cbn [app]. rewrite Ascii.eqb_refl.
  assert ((match ell with Some _ => false | None => true end) && negb (Nat.eqb (length acc) 12) = false) as ->.
  { destruct ell; [reflexivity|]. destruct He as [?|X]; [congruence|]. rewrite X. reflexivity. }
  assert (Nat.ltb 16 (length acc + 4) = false) as -> by (apply Nat.ltb_ge; lia). reflexivity.
Qed.

Lemma quad_head v : v < 2 ^ 32 -> exists c r, quad v = c :: r /\ hex_digit c <> None.
Proof.
  intros Hv. rewrite <- text4_quad by exact Hv. destruct (bytes4 _ Hv) as (b3 & b2 & b1 & b0 & H3 & H2 & H1 & H0 & _ & _ & ->). unfold dotted.
  pose proof (fmt_chars b3 H3) as F. pose proof (fmt_nonnil b3 H3) as Ne. destruct (fmt_d b3) as [|c s]; [congruence|]. inversion F; subst.
  exists c, (s ++ ["."%char] ++ fmt_d b2 ++ ["."%char] ++ fmt_d b1 ++ ["."%char] ++ fmt_d b0). split; [reflexivity|].
  unfold hex_digit, dec_digit in *. destruct ((48 <=? ord c) && (ord c <=? 57)); [discriminate|congruence].
Qed.
Lemma last_head s n v : last_groups s n v -> exists c r, s = c :: r /\ hex_digit c <> None.
Proof.
  intros H. destruct H as [s n v H|v H|s n v w H _]; [apply groups_head in H|apply quad_head in H; auto|apply groups_head in H].
  - destruct H as (c & r & -> & Hc). eauto.
  - destruct H as (c & r & -> & Hc). cbn [app]. eauto.
Qed.

Lemma loop_last s n v f acc ell : last_groups s n v -> (n <= f)%nat -> (length acc + 2 * n <= 16)%nat ->
  (ell <> None \/ (length acc + 2 * n = 16)%nat) ->
  exists bs, gb bs n v /\ parseIPv6_loop f acc ell s = Some (acc ++ bs, ell, []).
Proof.
  intros H Hf Ha He. destruct H as [s n v H|v H|s n v w H Hw].
  - destruct (loop_groups s n v H) as (bs & G & L & _). exists bs. split; [exact G|]. apply L; exact Hf.
  - destruct f as [|f]; [lia|]. apply loop_quad; [exact H| |lia]. destruct He; [auto|right; lia].
  - destruct (loop_groups s n v H) as (bs & G & _ & _ & L3). destruct (quad_head w Hw) as (c & r & Eq & Hc).
    destruct G as (F & Lb & E).
    destruct (loop_quad (f - n - 1) (acc ++ bs) ell w Hw) as (bs2 & (F2 & Lb2 & E2) & Lq).
    { rewrite app_length. destruct He; [auto|right; lia]. } { rewrite app_length. lia. }
    exists (bs ++ bs2). split.
    + split; [apply Forall_app; auto|]. split; [rewrite app_length; lia|]. rewrite be_app, E, E2. unfold nlen. rewrite Lb2. reflexivity.
    + rewrite Eq. change (#":") with [":"%char]. cbn [app]. rewrite L3 by (try lia; apply hex_not_colon; exact Hc). rewrite <- Eq.
      replace (f - n)%nat with (S (f - n - 1)) by lia. rewrite Lq, <- app_assoc. reflexivity.
Qed.

Lemma be_zeros k : be (repeat 0 k) = 0.
Proof. induction k as [|k IH]; [reflexivity|]. cbn [repeat]. rewrite be_cons, IH. lia. Qed.
Lemma end_ell bs1 bs2 n1 n2 v1 v2 : gb bs1 n1 v1 -> gb bs2 n2 v2 -> (n1 + n2 < 8)%nat ->
  exists ip, parseIPv6_end (bs1 ++ bs2, Some (length bs1), []) = Some ip /\ be ip = v1 * 2 ^ (16 * N.of_nat (8 - n1)) + v2.
Proof.
  intros (F1 & L1 & E1) (F2 & L2 & E2) H. unfold parseIPv6_end. rewrite app_length.
  assert (Nat.ltb (length bs1 + length bs2) 16 = true) as -> by (apply Nat.ltb_lt; lia).
  rewrite firstn_app, firstn_all, Nat.sub_diag, skip_app. cbn [firstn]. rewrite app_nil_r. eexists. split; [reflexivity|].
  rewrite !be_app, be_zeros, E1, E2. unfold nlen. rewrite app_length, repeat_length. rewrite N.mul_0_l, N.add_0_l. do 3 f_equal. lia.
Qed.

Lemma read_text s a : ipv6_text s a -> exists ip, parseIPv6 s = Some ip /\ be ip = a.
Proof.
  assert (G : forall c s, hex_digit c <> None ->
     parseIPv6 (c :: s) = match parseIPv6_loop 8 [] None (c :: s) with Some r => parseIPv6_end r | None => None end).
  { intros c s0 Hc. unfold parseIPv6. destruct s0; [reflexivity|]. rewrite (hex_not_colon c Hc). reflexivity. }
  intros H. destruct H as [s a H| |s n v H Hn|s n v H Hn|s1 n1 v1 s2 n2 v2 H1 H2 Hn].
  - destruct (loop_last s 8 a 8 [] None H) as (bs & (F & L & E) & P); try (cbn [length]; lia).
    destruct (last_head s 8 a H) as (c & r & -> & Hc). rewrite G, P by exact Hc. cbn [app].
    exists bs. split; [|exact E]. unfold parseIPv6_end. rewrite L. reflexivity.
  - exists (repeat 0 16). split; reflexivity.
  - destruct (loop_groups s n v H) as (bs & GB & _ & L2 & _). destruct (groups_head s n v H) as (c & r & -> & Hc).
    change (#"::") with [":"%char; ":"%char]. cbn [app]. rewrite G by exact Hc. specialize (L2 8%nat [] [] ltac:(lia)). cbn [app] in L2. rewrite L2.
    assert (GB0 : gb [] 0 0) by (repeat split; constructor).
    destruct (end_ell bs [] n 0 v 0 GB GB0 ltac:(lia)) as (ip & E & V). rewrite app_nil_r in E. exists ip. split; [exact E|rewrite V; lia].
  - destruct (loop_last s n v 8 [] (Some O) H) as (bs & GB & P); try (cbn [length]; lia). { left. discriminate. }
    destruct (last_head s n v H) as (c & r & -> & Hc). change (#"::") with [":"%char; ":"%char]. cbn [app].
    unfold parseIPv6. rewrite Ascii.eqb_refl. cbn [andb]. rewrite P. cbn [app].
    assert (GB0 : gb [] 0 0) by (repeat split; constructor).
    destruct (end_ell [] bs 0 n 0 v GB0 GB ltac:(lia)) as (ip & E & V). exists ip. split; [exact E|rewrite V; lia].
  - destruct (loop_groups s1 n1 v1 H1) as (bs & GB & _ & L2 & _). destruct (groups_head s1 n1 v1 H1) as (c & r & -> & Hc).
    destruct (loop_last s2 n2 v2 (8 - n1) bs (Some (length bs)) H2) as (bs2 & GB2 & P).
    { lia. } { destruct GB as (_ & L & _). lia. } { left. discriminate. }
    destruct (last_head s2 n2 v2 H2) as (c2 & r2 & -> & Hc2).
    change (#"::") with [":"%char; ":"%char]. cbn [app]. rewrite G by exact Hc. specialize (L2 8%nat [] (c2 :: r2) ltac:(lia)). cbn [app] in L2. rewrite L2, P.
    exact (end_ell bs bs2 n1 n2 v1 v2 GB GB2 Hn).
Qed.


(* ---- whatever is read is a text of the grammar ---- *)
Definition ends (s : str) (n : nat) (v : N) (bs : list N) : Prop := last_groups s n v /\ gb bs n v.
Lemma ends_one t g : hex_text t g -> ends t 1 g (g2 g).
Proof. intros H. split; [apply lg_groups, hg_one, H|apply gb_one, H]. Qed.
Lemma ends_cons t g s n v bs : hex_text t g -> ends s n v bs -> exists v', ends (t ++ #":" ++ s) (S n) v' (g2 g ++ bs).
Proof.
  intros H [HL G]. exists (g * 2 ^ (16 * N.of_nat n) + v). split; [|apply gb_cons; [apply H|exact G]].
  destruct HL as [s n v HG|v Hv|s n v w HG Hw].
  - apply lg_groups, hg_cons; assumption.
  - pose proof (lg_both t 1 g v (hg_one t g H) Hv) as X. exact X.
  - pose proof (lg_both (t ++ #":" ++ s) (S n) _ w (hg_cons t g s n v H HG) Hw) as X. rewrite <- !app_assoc in X.
    replace (g * 2 ^ (16 * N.of_nat (n + 2)) + (v * 2 ^ 32 + w)) with ((g * 2 ^ (16 * N.of_nat n) + v) * 2 ^ 32 + w); [exact X|].
    replace (16 * N.of_nat (n + 2)) with (16 * N.of_nat n + 32) by lia. rewrite N.pow_add_r. lia.
Qed.
(* what the loop can have read when nothing is left *)
Definition loop_res (acc : list N) (ell : option nat) (s : str) (acc' : list N) (ell' : option nat) : Prop :=
  (ell' = ell /\ exists n v bs, acc' = acc ++ bs /\ ends s n v bs) \/
  (ell = None /\ exists s1 n1 v1 bs1 s2 bs2 n2 v2, ell' = Some (length (acc ++ bs1)) /\ s = s1 ++ #"::" ++ s2 /\ acc' = acc ++ bs1 ++ bs2 /\
     hex_groups s1 n1 v1 /\ gb bs1 n1 v1 /\ (s2 = [] /\ n2 = O /\ bs2 = [] /\ v2 = 0 \/ ends s2 n2 v2 bs2)).
Lemma res_cons t g acc ell s acc' ell' : hex_text t g -> loop_res (acc ++ g2 g) ell s acc' ell' -> loop_res acc ell (t ++ #":" ++ s) acc' ell'.
Proof.
  intros H [(-> & n & v & bs & -> & E)|(-> & s1 & n1 & v1 & bs1 & s2 & bs2 & n2 & v2 & -> & -> & -> & HG & G & X)].
  - left. split; [reflexivity|]. destruct (ends_cons t g s n v bs H E) as (v' & E'). exists (S n), v', (g2 g ++ bs). rewrite <- app_assoc. auto.
  - right. split; [reflexivity|]. exists (t ++ #":" ++ s1), (S n1), (g * 2 ^ (16 * N.of_nat n1) + v1), (g2 g ++ bs1), s2, bs2, n2, v2.
    rewrite <- !app_assoc. split; [reflexivity|]. split; [reflexivity|]. split; [reflexivity|].
    split; [apply hg_cons; assumption|]. split; [apply gb_cons; [apply H|exact G]|exact X].
Qed.
Lemma dot_skip (t rest : str) c : (match skipn (length t) (t ++ rest) with c1 :: _ => Ascii.eqb c1 c | [] => false end) = match rest with c1 :: _ => Ascii.eqb c1 c | [] => false end.
Proof. rewrite skip_app. reflexivity. Qed.

Lemma loop_inv f : forall acc ell s acc' ell', parseIPv6_loop f acc ell s = Some (acc', ell', []) -> s <> [] -> loop_res acc ell s acc' ell'.
Proof.
  induction f as [|f IH]; intros acc ell s acc' ell' H Hs; cbn [parseIPv6_loop] in H.
  - exfalso. congruence.
  - destruct (xtoi s) as [[n c]|] eqn:X; [|discriminate]. destruct (0xFFFF <? n) eqn:Hn; [discriminate|]. apply N.ltb_ge in Hn.
    destruct (xtoi_inv s n c X Hn) as (t & rest & Ht & Es & -> & St). rewrite Es in H at 1. rewrite dot_skip in H.
    destruct (match rest with c1 :: _ => Ascii.eqb c1 "."%char | [] => false end).
    + destruct (_ && _); [discriminate|]. destruct (Nat.ltb 16 _); [discriminate|]. destruct (parseIPv4 s) as [ip|] eqn:P; [|discriminate].
      apply parseIPv4_inv in P. destruct P as (b3 & b2 & b1 & b0 & H3 & H2 & H1 & H0 & Eq & ->).
      assert (Ea : acc' = acc ++ [b3; b2; b1; b0]) by (cbn [net_IPv4 app skipn] in H; congruence). assert (Ee : ell' = ell) by congruence.
      left. split; [exact Ee|]. destruct (dotted_of_bytes b3 b2 b1 b0 H3 H2 H1 H0) as [L E].
      exists 2%nat, (be [b3; b2; b1; b0]), [b3; b2; b1; b0]. split; [exact Ea|]. split.
      * rewrite Eq, <- E, text4_quad by exact L. apply lg_quad. exact L.
      * split; [repeat constructor; assumption|]. split; reflexivity.
    + rewrite Es, skip_app in H. destruct rest as [|c1 rest1].
      * left. assert (Ea : acc' = acc ++ g2 n) by (unfold g2; congruence). split; [congruence|].
        exists 1%nat, n, (g2 n). split; [exact Ea|]. rewrite Es, app_nil_r. apply ends_one. exact Ht.
      * destruct (Ascii.eqb c1 ":") eqn:C1; cbn [negb] in H; [|discriminate]. apply eqb_ascii in C1. subst c1.
        destruct rest1 as [|c2 rest2]; [discriminate|]. destruct (Ascii.eqb c2 ":") eqn:C2.
        -- apply eqb_ascii in C2. subst c2. destruct ell as [e|]; [discriminate|].
           assert (Es' : s = t ++ #"::" ++ rest2) by exact Es. destruct rest2 as [|c3 rest3].
           ++ right. split; [reflexivity|]. exists t, 1%nat, n, (g2 n), [], [], O, 0. 
              split; [unfold g2; congruence|]. split; [exact Es'|]. split; [rewrite app_nil_r; unfold g2; congruence|].
              split; [apply hg_one; exact Ht|]. split; [apply gb_one, Ht|]. left. auto.
           ++ apply IH in H; [|discriminate]. destruct H as [(-> & m & v & bs & -> & E)|(? & _)]; [|discriminate].
              right. split; [reflexivity|]. exists t, 1%nat, n, (g2 n), (c3 :: rest3), bs, m, v.
              split; [reflexivity|]. split; [exact Es'|]. split; [rewrite <- app_assoc; reflexivity|].
              split; [apply hg_one; exact Ht|]. split; [apply gb_one, Ht|]. right. exact E.
        -- apply IH in H; [|discriminate]. rewrite Es. exact (res_cons t n acc ell (c2 :: rest2) acc' ell' Ht H).
Qed.

Lemma end_none acc' ip : parseIPv6_end (acc', None, []) = Some ip -> ip = acc' /\ ~ (length acc' < 16)%nat.
Proof. unfold parseIPv6_end. destruct (Nat.ltb _ 16) eqn:E; [discriminate|]. apply Nat.ltb_ge in E. intros H. split; [congruence|lia]. Qed.
Lemma end_some acc' e ip : parseIPv6_end (acc', Some e, []) = Some ip -> (length acc' < 16)%nat.
Proof. unfold parseIPv6_end. destruct (Nat.ltb _ 16) eqn:E; [|discriminate]. apply Nat.ltb_lt in E. auto. Qed.

Lemma some_inj (a b : list N) : Some a = Some b -> a = b.
Proof. congruence. Qed.
Lemma text_read s ip : parseIPv6 s = Some ip -> ipv6_text s (be ip).
Proof.
  intros H. destruct (parseIPv6_bytes s ip H) as [F16 L16].
  assert (GO : forall ell s0, s0 <> [] -> (ell = None \/ ell = Some O) ->
     match parseIPv6_loop 8 [] ell s0 with Some r => parseIPv6_end r | None => None end = Some ip ->
     ell = None /\ ipv6_text s0 (be ip) \/ ell = Some O /\ ipv6_text (#"::" ++ s0) (be ip)).
  { intros ell s0 Hs He K. destruct (parseIPv6_loop 8 [] ell s0) as [[[acc' ell'] r]|] eqn:P; [|discriminate].
    destruct r as [|? ?]; [|discriminate K]. apply loop_inv in P; [|exact Hs].
    destruct P as [(-> & n & v & bs & -> & E & G)|(-> & s1 & n1 & v1 & bs1 & s2 & bs2 & n2 & v2 & -> & -> & -> & HG & G & X)]; cbn [app] in K.
    - destruct He as [->| ->].
      + left. split; [reflexivity|]. apply end_none in K. destruct K as [-> L]. destruct G as (Fb & Lb & Eb). rewrite Eb. 
        assert (n = 8%nat) as -> by lia. apply it_full. exact E.
      + right. split; [reflexivity|]. pose proof (end_some _ _ _ K) as L. assert (Hn : (n < 8)%nat) by (destruct G as (_ & Lb & _); lia).
        assert (GB0 : gb [] 0 0) by (repeat split; constructor).
        destruct (end_ell [] bs 0 n 0 v GB0 G ltac:(lia)) as (ip' & E' & V). 
        assert (ip' = ip) as -> by (apply some_inj; exact (eq_trans (eq_sym E') K)). rewrite V, N.mul_0_l, N.add_0_l. apply it_right with n; assumption.
    - left. split; [reflexivity|]. destruct G as (Fb & Lb & Eb). pose proof (end_some _ _ _ K) as L. rewrite app_length in L.
      destruct X as [(-> & -> & -> & ->)|[E2 G2]].
      + cbn [length] in L. rewrite app_nil_r in K. 
        assert (GB0 : gb [] 0 0) by (repeat split; constructor).
        destruct (end_ell bs1 [] n1 0 v1 0 (conj Fb (conj Lb Eb)) GB0 ltac:(lia)) as (ip' & E' & V). rewrite app_nil_r in E'.
        assert (ip' = ip) as -> by (apply some_inj; exact (eq_trans (eq_sym E') K)). rewrite V, N.add_0_r, app_nil_r. apply it_left; [exact HG|lia].
      + assert (Hn : (n1 + n2 < 8)%nat) by (destruct G2 as (_ & Lb2 & _); lia).
        destruct (end_ell bs1 bs2 n1 n2 v1 v2 (conj Fb (conj Lb Eb)) G2 Hn) as (ip' & E' & V).
        assert (ip' = ip) as -> by (apply some_inj; exact (eq_trans (eq_sym E') K)). rewrite V. exact (it_both s1 n1 v1 s2 n2 v2 HG E2 Hn). }
  unfold parseIPv6 in H. destruct s as [|c0 [|c1 s]]; try discriminate H.
  - destruct (GO None [c0] ltac:(discriminate) ltac:(auto) H) as [[_ X]|[X _]]; [exact X|discriminate].
  - destruct (Ascii.eqb c0 ":" && Ascii.eqb c1 ":") eqn:C.
    + apply andb_true_iff in C. destruct C as [C0 C1]. apply eqb_ascii in C0, C1. subst c0 c1. destruct s as [|c2 s].
      * assert (ip = repeat 0 16) as -> by congruence. rewrite be_zeros. exact it_zero.
      * destruct (GO (Some O) (c2 :: s) ltac:(discriminate) ltac:(auto) H) as [[X _]|[_ X]]; [discriminate|exact X].
    + destruct (GO None (c0 :: c1 :: s) ltac:(discriminate) ltac:(auto) H) as [[_ X]|[X _]]; [exact X|discriminate].
Qed.

(* ---- the first separator of such a text is a colon ---- *)
Lemma text_plain t g : hex_text t g -> Forall plain t.
Proof.
  intros (_ & _ & ds & F & _). induction F as [|c d t ds Hc F IH]; constructor; [|exact IH].
  apply hex_digit_iff in Hc. split; intros ->; discriminate Hc.
Qed.
Lemma groups_colon s n v r : hex_groups s n v -> exists pre r', s ++ ":"%char :: r = pre ++ ":"%char :: r' /\ Forall plain pre.
Proof.
  intros H. destruct H as [t g H|t g s n v H _]; apply text_plain in H.
  - eauto.
  - exists t, (s ++ ":"%char :: r). rewrite <- app_assoc. split; [reflexivity|exact H].
Qed.
Lemma text_colon s a : ipv6_text s a -> exists pre r, s = pre ++ ":"%char :: r /\ Forall plain pre.
Proof.
  intros H. destruct H as [s a H| |s n v H Hn|s n v H Hn|s1 n1 v1 s2 n2 v2 H1 H2 Hn].
  - remember 8%nat as k eqn:Hk. destruct H as [s n v H|v H|s n v w H Hw].
    + destruct H as [t g H|t g s n v H _]; [discriminate|]. exists t, s. split; [reflexivity|apply (text_plain t g H)].
    + discriminate.
    + exact (groups_colon s n v (quad w) H).
  - exists [], [":"%char]. split; [reflexivity|constructor].
  - exact (groups_colon s n v [":"%char] H).
  - exists [], (":"%char :: s). split; [reflexivity|constructor].
  - exact (groups_colon s1 n1 v1 (":"%char :: s2) H1).
Qed.
Lemma ParseIP_text s : forall ip, ParseIP s = Some ip <-> parseIPv4 s = Some ip \/ parseIPv6 s = Some ip.
Proof.
  intros ip. split.
  - unfold ParseIP. generalize s at 2. induction s0 as [|c r IH]; cbn [ParseIP_scan]; [discriminate|].
    destruct (Ascii.eqb c "."); [auto|]. destruct (Ascii.eqb c ":"); auto.
  - intros [H|H].
    + rewrite <- H. apply parseIPv4_inv in H. destruct H as (b3 & b2 & b1 & b0 & H3 & H2 & H1 & H0 & -> & ->).
      rewrite ParseIP_dotted, parseIPv4_dotted by assumption. reflexivity.
    + rewrite <- H. apply text_read, text_colon in H. destruct H as (pre & r & E & F). unfold ParseIP. rewrite E at 2. apply ParseIP_colon. exact F.
Qed.
