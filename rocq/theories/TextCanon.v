(* TextCanon.v - the IPv6 text is the canonical one of RFC 5952; proofs. *)
From Verif Require Export TextProof6.
From Coq Require Import Arith Lia ZifyBool ZifyNat ZifyN.

Lemma hex_appendHex g : group g -> appendHex g = hex g.
Proof.
  intros H. destruct (appendHex_digits g H) as (hs & -> & F & _ & _ & E). unfold hex. rewrite <- E. clear E.
  apply map_ext_in. intros d Hd. rewrite Forall_forall in F. specialize (F d Hd). apply eqb_ascii.
  apply (small_all (fun d => Ascii.eqb (hexDigit d) (hex_char d)) 16); [vm_compute; reflexivity|exact F].
Qed.

Lemma colons_jc gs : Forall group gs -> colons gs = jc gs.
Proof.
  intros F. induction F as [|g gs Hg F IH]; [reflexivity|]. cbn [colons]. rewrite <- (hex_appendHex g Hg).
  destruct gs as [|g' gs]; [unfold jc, jt; cbn [flat_map]; rewrite app_nil_r; reflexivity|]. rewrite IH, jc_cons2. reflexivity.
Qed.

(* the groups of the bytes are the groups of the number *)
Lemma groups_spec a : wfu a -> groups (ToNetIP6 a) = groups_of (num a).
Proof.
  intros Ha. destruct (be_toBytes6 a Ha) as (F & L & E).
  destruct (groups_bytes (ToNetIP6 a) F) as (A & B & C); [exists 8%nat; exact L|].
  remember (groups (ToNetIP6 a)) as gs eqn:G. clear G. rewrite <- B in E. rewrite <- E. rewrite L in C.
  assert (L8 : length gs = 8%nat) by lia. clear -A L8.
  do 8 (destruct gs as [|? gs]; [discriminate|]). destruct gs; [|discriminate].
  repeat match goal with H : Forall _ (_ :: _) |- _ => inversion H; clear H; subst end.
  assert (X : forall gs, Forall group gs -> be (gbytes gs) = fold_left (fun v g => v * 65536 + g) gs 0).
  { intros gs. rewrite <- (rev_involutive gs). induction (rev gs) as [|g l IH]; intros F; [reflexivity|]. cbn [rev] in *.
    apply Forall_app in F. destruct F as [F1 F2]. inversion F2 as [|? ? Hg _]; subst. rewrite gbytes_app, be_app, fold_left_app, IH by exact F1.
    cbn [gbytes flat_map app fold_left]. change (2 ^ (8 * nlen [g / 256; g mod 256])) with 65536.
    f_equal. rewrite be_cons. change (2 ^ (8 * nlen [g mod 256])) with 256. change (be [g mod 256]) with (0 * 256 + g mod 256).
    pose proof (N.div_mod g 256 ltac:(discriminate)). lia. }
  rewrite X by (repeat constructor; assumption). cbn [fold_left]. unfold groups_of. cbn [map].
  change (16 * 7) with (16+(16+(16+(16+(16+(16+(16+0))))))). change (16 * 6) with (16+(16+(16+(16+(16+(16+0)))))).
  change (16 * 5) with (16+(16+(16+(16+(16+0))))). change (16 * 4) with (16+(16+(16+(16+0)))). change (16 * 3) with (16+(16+(16+0))).
  change (16 * 2) with (16+(16+0)). change (16 * 1) with (16+0). change (16*0) with 0.
  assert (D : forall v g k, group g -> (v * 65536 + g) / 2 ^ (16 + k) = v / 2 ^ k).
  { intros v g k Hg. rewrite N.pow_add_r, <- N.div_div by (apply N.pow_nonzero; discriminate). f_equal.
    change (2 ^ 16) with 65536. symmetry. apply (N.div_unique _ _ _ g); [exact Hg|lia]. }
  assert (M : forall v g, group g -> (v * 65536 + g) / 2 ^ 0 mod 2 ^ 16 = g).
  { intros v g Hg. change (2 ^ 0) with 1. rewrite N.div_1_r. symmetry. apply (N.mod_unique _ _ v); [exact Hg|change (2 ^ 16) with 65536; lia]. }
  rewrite !D by assumption. rewrite !M by assumption. reflexivity.
Qed.

(* ---- the longest run ---- *)
Lemma run_end_max gs : forall i, exists k, run_end gs i = (i + k)%nat /\ zero_run gs 0 k /\ nth_error gs k <> Some 0.
Proof.
  induction gs as [|g gs IH]; intros i; cbn [run_end].
  - exists O. rewrite Nat.add_0_r. split; [reflexivity|]. split; [intros j Hj; lia|discriminate].
  - destruct g as [|q].
    + destruct (IH (S i)) as (k & -> & Z & E). exists (S k). split; [lia|]. split; [|exact E].
      intros [|j] Hj; [reflexivity|]. cbn [nth_error]. apply Z. lia.
    + exists O. rewrite Nat.add_0_r. split; [reflexivity|]. split; [intros j Hj; lia|discriminate].
Qed.
Lemma nth_error_skipn (gs : list N) : forall i k, nth_error (skipn i gs) k = nth_error gs (i + k).
Proof. induction gs as [|g gs IH]; intros [|i] k; cbn [skipn Nat.add nth_error]; auto. destruct k; reflexivity. Qed.
Lemma run_from gs i : exists k, run_end (skipn i gs) i = (i + k)%nat /\ zero_run gs i k /\ nth_error gs (i + k) <> Some 0.
Proof.
  destruct (run_end_max (skipn i gs) i) as (k & E & Z & M). exists k. split; [exact E|]. rewrite nth_error_skipn in M. split; [|exact M].
  intros j Hj. specialize (Z (j - i)%nat ltac:(lia)). rewrite nth_error_skipn in Z. replace (i + (j - i))%nat with j in Z by lia. exact Z.
Qed.

Definition best_of (gs : list N) (i : nat) (e : Z * Z) : Prop :=
  (e = (-1, -1)%Z \/ exists i0 k0, e = (Z.of_nat i0, Z.of_nat (i0 + k0)) /\ zero_run gs i0 k0 /\
                       forall i', (i' < i0)%nat -> ~ zero_run gs i' k0) /\
  forall i' k', (i' < i)%nat -> zero_run gs i' k' -> (Z.of_nat k' <= snd e - fst e)%Z.

Lemma longest_best f gs : forall i best, best_of gs i best -> (length gs <= f + i)%nat ->
  best_of gs (length gs) (longest f gs i best).
Proof.
  assert (DONE : forall i best, best_of gs i best -> (length gs <= i)%nat -> best_of gs (length gs) best).
  { intros i best [A B] H. split; [exact A|]. intros i' k' Hi. apply B. lia. }
  induction f as [|f IH]; intros i [e0 e1] H L; cbn [longest]; [eauto|].
  destruct (Nat.leb_spec (length gs) i) as [G|G]; [eauto|].
  destruct (run_from gs i) as (k & -> & Z & M).
  assert (AT : forall i' k', (i <= i' <= i + k)%nat -> zero_run gs i' k' -> (i' + k' <= i + k)%nat).
  { intros i' k' Hi R. destruct (Nat.le_gt_cases (i' + k') (i + k)) as [?|X]; [assumption|]. exfalso. apply M. apply R. lia. }
  replace (i + k - i)%nat with k by lia. destruct H as [A B]. cbn [fst snd] in B.
  destruct (Nat.ltb_spec i (i + k)) as [Q|Q]; cbn [andb].
  - destruct (Z.ltb_spec (e1 - e0) (Z.of_nat k)) as [R|R].
    + apply IH; [|lia]. split.
      * right. exists i, k. split; [reflexivity|]. split; [exact Z|]. intros i' Hi X. specialize (B i' k Hi X). lia.
      * cbn [fst snd]. intros i' k' Hi X. destruct (Nat.lt_ge_cases i' i) as [Y|Y].
        -- specialize (B i' k' Y X). lia.
        -- specialize (AT i' k' ltac:(lia) X). lia.
    + apply IH; [|lia]. split; [exact A|]. cbn [fst snd]. intros i' k' Hi X. destruct (Nat.lt_ge_cases i' i) as [Y|Y]; [exact (B i' k' Y X)|].
      specialize (AT i' k' ltac:(lia) X). lia.
  - apply IH; [|lia]. split; [exact A|]. cbn [fst snd]. intros i' k' Hi X. destruct (Nat.lt_ge_cases i' i) as [Y|Y]; [exact (B i' k' Y X)|].
    specialize (AT i' k' ltac:(lia) X).
    assert (0 <= e1 - e0)%Z; [|lia]. destruct A as [[= -> ->]|(i0 & k0 & [= -> ->] & _)]; lia.
Qed.

Lemma run_start gs i k : (0 < k)%nat -> zero_run gs i k -> (i + k <= length gs)%nat.
Proof.
  intros K Z. specialize (Z (i + k - 1)%nat ltac:(lia)). assert (nth_error gs (i + k - 1) <> None) by congruence.
  apply nth_error_Some in H. lia.
Qed.

Lemma ellipsis_spec gs : length gs = 8%nat ->
  ellipsis gs = (-1, -1)%Z /\ (forall i, ~ zero_run gs i 2) \/
  exists i k, ellipsis gs = (Z.of_nat i, Z.of_nat (i + k)) /\ (2 <= k)%nat /\ zero_run gs i k /\
    (forall i' k', (2 <= k')%nat -> zero_run gs i' k' -> (k' <= k)%nat) /\
    (forall i', zero_run gs i' k -> (i <= i')%nat).
Proof.
  intros L. unfold ellipsis.
  assert (B0 : best_of gs 0 (-1, -1)%Z) by (split; [left; reflexivity|intros; lia]).
  pose proof (longest_best 8 gs 0 (-1, -1)%Z B0 ltac:(lia)) as H. destruct (longest 8 gs 0 (-1, -1)%Z) as [e0 e1].
  destruct H as [A B]. cbn [fst snd] in B.
  assert (B' : forall i' k', (0 < k')%nat -> zero_run gs i' k' -> (Z.of_nat k' <= e1 - e0)%Z).
  { intros i' k' K R. apply (B i'); [|exact R]. pose proof (run_start gs i' k' K R). lia. }
  destruct (Z.leb_spec (e1 - e0) 1) as [S1|S1].
  - left. split; [reflexivity|]. intros i R. specialize (B' i 2%nat ltac:(lia) R). lia.
  - right. destruct A as [[= -> ->]|(i0 & k0 & [= -> ->] & Z & First)]; [lia|]. exists i0, k0.
    split; [reflexivity|]. split; [lia|]. split; [exact Z|]. split.
    + intros i' k' K R. specialize (B' i' k' ltac:(lia) R). lia.
    + intros i' R. destruct (Nat.le_gt_cases i0 i') as [?|X]; [assumption|]. exfalso. exact (First i' X R).
Qed.

Lemma text6_rfc a : wfu a -> ~ v4_mapped (num a) -> rfc5952 (num a) (Address_String6 a).
Proof.
  intros Ha Hm. destruct (be_toBytes6 a Ha) as (F & L & E).
  assert (To4 (ToNetIP6 a) = None) as T4 by (apply To4_16; auto; rewrite E; exact Hm).
  destruct (groups_bytes (ToNetIP6 a) F) as (A & B & C); [exists 8%nat; exact L|].
  unfold Address_String6, IP_String. rewrite T4. unfold rfc5952. rewrite <- (groups_spec a Ha).
  set (gs := groups (ToNetIP6 a)) in *. rewrite L in C. assert (L8 : length gs = 8%nat) by lia. cbv zeta.
  destruct (ellipsis_spec gs L8) as [[E1 N]|(i & k & E1 & K & Z & Max & First)].
  - left. split; [exact N|]. rewrite E1, print_all, colons_jc by (try exact A; lia). reflexivity.
  - right. exists i, k. repeat (split; [assumption|]).
    assert (F1 : Forall group (firstn i gs)) by (rewrite <- (firstn_skipn i gs) in A; apply Forall_app in A; apply A).
    assert (F2 : Forall group (skipn (i + k) gs)) by (rewrite <- (firstn_skipn (i + k) gs) in A; apply Forall_app in A; apply A).
    pose proof (run_start gs i k ltac:(lia) Z).
    rewrite E1, print_mid, !colons_jc by (try exact F1; try exact F2; lia). cbn [Nat.eqb skipn]. rewrite Nat.sub_0_r. reflexivity.
Qed.
