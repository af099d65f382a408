(* Key.v - proofs relating bit strings (Bits.v) to the arithmetic of Spec.v,
   and the characterisation of contains/compare on bit strings. *)
From Verif Require Export Bits Spec.
From Coq Require Import Arith ZifyBool ZifyNat ZifyN.
Arguments N.add : simpl never.
Arguments N.mul : simpl never.
Arguments N.sub : simpl never.
Arguments N.pow : simpl never.

(* numeric value of a bit string, most significant first *)
Fixpoint val (l : list bool) : N :=
  match l with
  | [] => 0
  | b :: l' => (if b then 2 ^ nlen l' else 0) + val l'
  end.

Lemma nlen_cons {A} (b : A) l : nlen (b :: l) = nlen l + 1.
Proof. unfold nlen. simpl length. lia. Qed.
Lemma nlen_app {A} (l m : list A) : nlen (l ++ m) = nlen l + nlen m.
Proof. unfold nlen. rewrite app_length. lia. Qed.
Lemma nlen_nil {A} : nlen (@nil A) = 0.
Proof. reflexivity. Qed.

Lemma val_lt l : val l < 2 ^ nlen l.
Proof.
  induction l as [|b l IH]; [reflexivity|].
  rewrite nlen_cons, N.pow_add_r. cbn [val]. change (2 ^ 1) with 2. destruct b; lia.
Qed.

Lemma val_app l m : val (l ++ m) = val l * 2 ^ nlen m + val m.
Proof.
  induction l as [|b l IH]; [reflexivity|].
  cbn [val app]. rewrite IH, nlen_app, N.pow_add_r. destruct b; lia.
Qed.

Lemma val_inj l m : length l = length m -> val l = val m -> l = m.
Proof.
  revert m. induction l as [|b l IH]; intros [|c m] HL HV; try discriminate; [reflexivity|].
  simpl in HL. injection HL as HL. cbn [val] in HV.
  pose proof (val_lt l) as B1. pose proof (val_lt m) as B2.
  unfold nlen in *. rewrite HL in B1, HV.
  destruct b, c; f_equal; try (apply IH; [exact HL|lia]); lia.
Qed.

Lemma top_S W a n : top W a (S n) = top W a n ++ [N.testbit a (W - 1 - N.of_nat n)].
Proof. replace (S n) with (n + 1)%nat by lia. rewrite top_split. reflexivity. Qed.

Lemma val_top W a n : a < 2 ^ W -> N.of_nat n <= W -> val (top W a n) = a / 2 ^ (W - N.of_nat n).
Proof.
  intros Ha. induction n as [|n IH]; intros Hn.
  - change (N.of_nat 0) with 0. rewrite N.sub_0_r. cbn. symmetry. apply N.div_small. exact Ha.
  - rewrite top_S, val_app, IH by lia. cbn [val]. rewrite nlen_cons, nlen_nil.
    change (2 ^ (0 + 1)) with 2. change (2 ^ 0) with 1.
    set (k := W - N.of_nat (S n)).
    replace (W - 1 - N.of_nat n) with k by lia.
    replace (W - N.of_nat n) with (N.succ k) by lia.
    rewrite <- !N.shiftr_div_pow2, N.shiftr_succ_r.
    pose proof (N.div2_odd (N.shiftr a k)) as E. rewrite E at 2.
    rewrite <- N.testbit_odd. unfold N.b2n. unfold nlen. cbn [length].
    change (2 ^ N.of_nat 0) with 1. destruct (N.testbit a k); lia.
Qed.

Section Key.
Variable W : N.
Notation key := (key W).

Lemma wf_key_len p : wf_prefix W p -> (length (key p) <= N.to_nat W)%nat.
Proof. intros [_ H]. rewrite key_length. lia. Qed.
Lemma nlen_key p : nlen (key p) = plen p.
Proof. unfold nlen. rewrite key_length. lia. Qed.

Lemma val_key p : wf_prefix W p -> val (key p) = paddr p / 2 ^ (W - plen p).
Proof. intros [Ha Hl]. unfold Bits.key. rewrite val_top by lia. rewrite N2Nat.id. reflexivity. Qed.

Lemma net_key p : wf_prefix W p -> net W p = val (key p) * 2 ^ (W - plen p).
Proof. intros H. rewrite val_key by exact H. reflexivity. Qed.

Lemma key_eq_iff p q : wf_prefix W p -> wf_prefix W q -> key p = key q <-> pkey W p = pkey W q.
Proof.
  intros Hp Hq. unfold pkey. rewrite !net_key by assumption. split.
  - intros E. assert (plen p = plen q) as EL by (rewrite <- !nlen_key, E; reflexivity).
    rewrite E, EL. reflexivity.
  - intros E. injection E as E1 E2. rewrite E2 in E1.
    apply N.mul_cancel_r in E1; [|apply N.pow_nonzero; lia].
    apply val_inj; [|exact E1]. rewrite !key_length, E2. reflexivity.
Qed.

Definition full (a : N) : list bool := top W a (N.to_nat W).
Lemma full_length a : length (full a) = N.to_nat W.
Proof. apply top_length. Qed.

Lemma in_prefix_pre p a : wf_prefix W p -> a < 2 ^ W -> in_prefix W p a <-> pre (key p) (full a).
Proof.
  intros [Hp Hl] Ha. unfold in_prefix. rewrite <- top_eq_div by lia.
  rewrite pre_firstn, key_length. unfold full. rewrite top_firstn by lia.
  unfold Bits.key. split; congruence.
Qed.

Lemma covers_pre p q : wf_prefix W p -> wf_prefix W q -> covers W p q <-> pre (key p) (key q).
Proof.
  intros [Hp Hl] [Hq Hl']. unfold covers, in_prefix.
  rewrite <- top_eq_div by lia. split.
  - intros [H E]. apply pre_firstn. rewrite key_length. unfold Bits.key.
    rewrite top_firstn by lia. exact E.
  - intros H. pose proof (pre_length _ _ H) as HL. rewrite !key_length in HL.
    split; [lia|]. apply pre_firstn in H. rewrite key_length in H. unfold Bits.key in H.
    rewrite top_firstn in H by lia. exact H.
Qed.

(* a host prefix *)
Lemma key_full a : key (mkPrefix a W) = full a.
Proof. reflexivity. Qed.

(* lexicographic order on bit strings: proper prefix first, then by first different bit *)
Definition blt (k l : list bool) : Prop :=
  (exists c r, l = k ++ c :: r) \/ (exists p r s, k = p ++ false :: r /\ l = p ++ true :: s).

Lemma val_fork_lt p r s n : N.of_nat (length (p ++ false :: r)) <= n -> N.of_nat (length (p ++ true :: s)) <= n ->
  val (p ++ false :: r) * 2 ^ (n - nlen (p ++ false :: r)) < val (p ++ true :: s) * 2 ^ (n - nlen (p ++ true :: s)).
Proof.
  intros H1 H2.
  assert (forall b t, N.of_nat (length (p ++ b :: t)) <= n ->
     val (p ++ b :: t) * 2 ^ (n - nlen (p ++ b :: t)) =
     (val p * 2 + (if b then 1 else 0)) * 2 ^ (n - nlen p - 1) + val t * 2 ^ (n - nlen p - 1 - nlen t)
     /\ val t * 2 ^ (n - nlen p - 1 - nlen t) < 2 ^ (n - nlen p - 1)) as A.
  { intros b t Hn. rewrite app_length in Hn. simpl length in Hn.
    rewrite val_app, nlen_app, nlen_cons. cbn [val].
    assert (2 ^ (n - nlen p - 1) = 2 ^ nlen t * 2 ^ (n - nlen p - 1 - nlen t)) as E.
    { rewrite <- N.pow_add_r. f_equal. unfold nlen. lia. }
    replace (n - (nlen p + (nlen t + 1))) with (n - nlen p - 1 - nlen t) by lia.
    pose proof (val_lt t) as Bt. rewrite E, N.pow_add_r. change (2 ^ 1) with 2.
    pose proof (pow2_pos (n - nlen p - 1 - nlen t)) as P.
    split; [destruct b; lia|]. apply N.mul_lt_mono_pos_r; assumption. }
  destruct (A false r H1) as [E1 L1]. destruct (A true s H2) as [E2 L2].
  rewrite E1, E2. lia.
Qed.

Lemma blt_trichotomy k l : blt k l \/ k = l \/ blt l k.
Proof.
  destruct (fork_cases k l) as [->|[(c & r & ->)|[(c & r & ->)|(p & c & ra & rb & -> & ->)]]].
  - auto.
  - left. left. eauto.
  - right. right. left. eauto.
  - destruct c.
    + right. right. right. exists p, rb, ra. auto.
    + left. right. exists p, ra, rb. auto.
Qed.

Lemma blt_lex1 p q : wf_prefix W p -> wf_prefix W q -> blt (key p) (key q) -> lex_lt W p q.
Proof.
  intros Hp Hq [(c & r & E)|(x & r & s & E1 & E2)]; unfold lex_lt; rewrite !net_key by assumption.
  - assert (plen q = plen p + 1 + nlen r) as EL.
    { rewrite <- !nlen_key, E, nlen_app, nlen_cons. lia. }
    pose proof (proj2 Hq) as Hl.
    rewrite E, val_app.
    rewrite nlen_cons.
    assert (2 ^ (W - plen p) = 2 ^ (nlen r + 1) * 2 ^ (W - plen q)) as E2.
    { rewrite <- N.pow_add_r. f_equal. lia. }
    rewrite E2.
    pose proof (pow2_pos (W - plen q)) as P.
    destruct (N.eq_dec (val (c :: r)) 0) as [Z|Z].
    + right. rewrite Z. split; [lia|lia].
    + left. rewrite N.mul_add_distr_r, N.mul_assoc.
      assert (0 < val (c :: r) * 2 ^ (W - plen q)) by (apply N.mul_pos_pos; lia). lia.
  - left. rewrite <- !nlen_key, E1, E2. apply val_fork_lt.
    + rewrite <- E1, key_length. destruct Hp. lia.
    + rewrite <- E2, key_length. destruct Hq. lia.
Qed.

Lemma lex_lt_irrefl p : ~ lex_lt W p p.
Proof. unfold lex_lt. lia. Qed.
Lemma lex_lt_trans p q r : lex_lt W p q -> lex_lt W q r -> lex_lt W p r.
Proof. unfold lex_lt. lia. Qed.

Lemma blt_lex p q : wf_prefix W p -> wf_prefix W q -> blt (key p) (key q) <-> lex_lt W p q.
Proof.
  intros Hp Hq. split; [apply blt_lex1; assumption|]. intros H.
  destruct (blt_trichotomy (key p) (key q)) as [B|[E|B]]; [exact B|exfalso|exfalso].
  - apply key_eq_iff in E; try assumption. unfold pkey in E. injection E as E1 E2. unfold lex_lt in H. lia.
  - apply blt_lex1 in B; try assumption. apply (lex_lt_irrefl p). eapply lex_lt_trans; eassumption.
Qed.

(* ---- contains and compare on keys ---- *)
Hypothesis HW : 0 < W /\ W < 2 ^ 15.
Lemma contains_match s l : wf_prefix W s -> wf_prefix W l -> plen s <= plen l ->
  (N.land (paddr s) (wshl W (N.ones W) (wsub 32 W (plen s))) =?
   N.land (paddr l) (wshl W (N.ones W) (wsub 32 W (plen s)))) = true <-> pre (key s) (key l).
Proof.
  intros [Hs Hls] [Hl Hll] H. rewrite wsub_len by lia. rewrite mask_match by lia.
  rewrite pre_firstn, key_length. unfold Bits.key. rewrite top_firstn by lia. split; congruence.
Qed.

Lemma contains_spec s l : wf_prefix W s -> wf_prefix W l -> plen s <= plen l ->
  (key s = key l /\ contains W s l = (true, true, plen s, false)) \/
  (exists c r, key l = key s ++ c :: r /\ contains W s l = (true, false, plen s, c)) \/
  (exists p c rs rl, key s = p ++ negb c :: rs /\ key l = p ++ c :: rl /\
     contains W s l = (false, false, nlen p, c)).
Proof.
  intros Hs Hl H. pose proof (contains_match s l Hs Hl H) as M. unfold contains.
  set (b := N.land (paddr s) _ =? _) in *.
  destruct (fork_cases (key s) (key l)) as [E|[(c & r & E)|[(c & r & E)|(p & c & ra & rb & E1 & E2)]]].
  - left. split; [exact E|].
    assert (b = true) as -> by (apply M; rewrite E; apply pre_refl).
    assert (plen s = plen l) as -> by (rewrite <- !nlen_key, E; reflexivity).
    rewrite N.eqb_refl. reflexivity.
  - right; left. exists c, r. split; [exact E|].
    assert (b = true) as -> by (apply M; rewrite E; apply pre_app_r).
    assert (plen l = plen s + 1 + nlen r) as EL by (rewrite <- !nlen_key, E, nlen_app, nlen_cons; lia).
    assert ((plen s =? plen l) = false) as -> by lia. cbn [andb].
    rewrite pivot_test by (destruct Hl; lia).
    f_equal.
    assert (nth_error (key l) (N.to_nat (plen s)) = Some c) as E3.
    { rewrite E, nth_error_app2 by (rewrite key_length; lia). rewrite key_length, Nat.sub_diag. reflexivity. }
    unfold Bits.key in E3. rewrite top_nth in E3 by lia. rewrite N2Nat.id in E3. congruence.
  - exfalso. assert (plen s = plen l + 1 + nlen r) by (rewrite <- !nlen_key, E, nlen_app, nlen_cons; lia). lia.
  - right; right. exists p, (negb c), ra, rb. rewrite negb_involutive.
    split; [exact E1|]. split; [exact E2|].
    assert (b = false) as ->.
    { destruct b; [|reflexivity]. exfalso. destruct M as [M _]. specialize (M eq_refl).
      destruct M as [t Et]. rewrite E2, E1, <- app_assoc in Et. apply app_inv_head in Et.
      injection Et as Et. destruct c; discriminate. }
    cbn [andb].
    assert (clz W (N.lxor (paddr s) (paddr l)) = nlen p) as ->.
    { eapply clz_fork with (na := N.to_nat (plen s)) (nb := N.to_nat (plen l)).
      - apply HW. - apply Hs. - apply Hl. - destruct Hs; lia. - destruct Hl; lia.
      - exact E1. - exact E2. }
    assert (nlen p < plen l) as HL.
    { rewrite <- nlen_key, E2, nlen_app, nlen_cons. lia. }
    rewrite pivot_test by (destruct Hl; lia). f_equal.
    assert (nth_error (key l) (length p) = Some (negb c)) as E3.
    { rewrite E2, nth_error_app2, Nat.sub_diag by lia. reflexivity. }
    unfold Bits.key in E3. rewrite top_nth in E3 by (unfold nlen in HL; lia).
    unfold nlen. congruence.
Qed.

Inductive cmp_spec (ka kb : list bool) : cmpres * bool * N * bool -> Prop :=
| CSame : ka = kb -> cmp_spec ka kb (compareSame, false, nlen ka, false)
| CCont c r : kb = ka ++ c :: r -> cmp_spec ka kb (compareContains, false, nlen ka, c)
| CIsC c r : ka = kb ++ c :: r -> cmp_spec ka kb (compareIsContained, true, nlen kb, c)
| CDis p c ra rb rev : ka = p ++ c :: ra -> kb = p ++ negb c :: rb ->
    rev = (nlen kb <? nlen ka) ->
    cmp_spec ka kb (compareDisjoint, rev, nlen p, if rev then c else negb c).

Lemma compare_spec a b : wf_prefix W a -> wf_prefix W b -> cmp_spec (key a) (key b) (compare W a b).
Proof.
  intros Ha Hb. unfold compare. destruct (N.ltb_spec (plen b) (plen a)) as [H|H].
  - destruct (contains_spec b a Hb Ha ltac:(lia)) as [[E ->]|[(c & r & E & ->)|(p & c & rs & rl & E1 & E2 & ->)]].
    + exfalso. rewrite <- !nlen_key, E in H. lia.
    + rewrite <- (nlen_key b). eapply CIsC. exact E.
    + eapply (CDis _ _ p c _ _ true); [exact E2|exact E1|]. rewrite !nlen_key. lia.
  - destruct (contains_spec a b Ha Hb H) as [[E ->]|[(c & r & E & ->)|(p & c & rs & rl & E1 & E2 & ->)]].
    + rewrite <- (nlen_key a). apply CSame. exact E.
    + rewrite <- (nlen_key a). eapply CCont. exact E.
    + assert (c = negb (negb c)) as Ec by (rewrite negb_involutive; reflexivity).
      rewrite Ec at 1. eapply (CDis _ _ p (negb c) rs rl false); [exact E1|rewrite <- Ec; exact E2|].
      rewrite !nlen_key. lia.
Qed.

(* the prefix of a join node *)
Lemma join_prefix_spec a n : wf_prefix W a -> n <= plen a ->
  wf_prefix W (join_prefix W a n) /\ plen (join_prefix W a n) = n /\
  key (join_prefix W a n) = firstn (N.to_nat n) (key a) /\
  (forall i, i < W - n -> N.testbit (paddr (join_prefix W a n)) i = false).
Proof.
  intros [Ha Hl] Hn. unfold join_prefix. cbn [paddr plen].
  set (x := N.land _ _).
  assert (forall i, N.testbit x i = N.testbit (paddr a) i && (W - n <=? i)) as HB.
  { intros i. unfold x. rewrite N.land_spec, testbit_wnot.
    assert (N.ones W < 2 ^ W) as HO by (rewrite N.ones_equiv; pose proof (pow2_pos W); lia).
    rewrite testbit_wshr, testbit_ones by exact HO.
    destruct (N.lt_ge_cases i W) as [Hi|Hi].
    - f_equal. destruct (N.ltb_spec (i + n) W), (N.ltb_spec i W), (N.leb_spec (W - n) i); try reflexivity; lia.
    - rewrite (testbit_high W) by assumption. reflexivity. }
  assert (x < 2 ^ W) as Hx.
  { apply bits_lt. intros i Hi. rewrite HB, (testbit_high W) by assumption. reflexivity. }
  split; [split; cbn; [exact Hx|lia]|]. split; [reflexivity|]. split.
  - unfold Bits.key. cbn [paddr plen]. rewrite top_firstn by lia.
    apply top_eq_iff. intros i Hi. rewrite HB.
    assert ((W - n <=? W - 1 - N.of_nat i) = true) as -> by lia. apply andb_true_r.
  - intros i Hi. rewrite HB. assert ((W - n <=? i) = false) as -> by lia. apply andb_false_r.
Qed.
End Key.
