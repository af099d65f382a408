(* RangeProof.v - conversion of a range to a set; proofs. *)
From Verif Require Export SetProv.
From Coq Require Import Arith Sorted ZifyBool ZifyNat ZifyN.

Section RangeProof.
Variable W : N.
Hypothesis HW : 0 < W /\ W < 2 ^ 15.
Notation key := (key W).
Notation swf := (swf W).
Notation den := (den W).
Notation full := (full W).
Notation WN := (N.to_nat W).

(* a < b fork after a common part, towards 0 and 1 *)
Definition fork (a b : N) (q ra rb : list bool) : Prop := full a = q ++ false :: ra /\ full b = q ++ true :: rb.

Lemma fork_exists a b : a < b -> b < 2 ^ W -> exists q ra rb, fork a b q ra rb.
Proof.
  intros L B. destruct (fork_cases (full a) (full b)) as [E|[(c & r & E)|[(c & r & E)|(p & c & ra & rb & E1 & E2)]]].
  - exfalso. assert (val (full a) = val (full b)) as V by (rewrite E; reflexivity). rewrite !val_full in V by lia. lia.
  - exfalso. apply (f_equal (@length bool)) in E. rewrite app_length, !full_length in E. cbn in E. lia.
  - exfalso. apply (f_equal (@length bool)) in E. rewrite app_length, !full_length in E. cbn in E. lia.
  - destruct c; [exfalso|exists p, ra, rb; split; auto].
    assert (length ra = length rb) as LL.
    { apply (f_equal (@length bool)) in E1, E2. rewrite app_length, full_length in E1, E2. cbn in E1, E2. lia. }
    assert (val (full a) = a /\ val (full b) = b) as [Va Vb] by (rewrite !val_full by lia; auto).
    rewrite E1 in Va. rewrite E2 in Vb. rewrite val_app in Va, Vb. cbn [val negb] in Va, Vb. rewrite !nlen_cons in *.
    pose proof (val_lt ra). pose proof (val_lt rb). unfold nlen in *. rewrite LL in *. lia.
Qed.
Lemma fork_len a b q ra rb : fork a b q ra rb -> (length q + S (length ra) = WN)%nat /\ length rb = length ra.
Proof.
  intros [E1 E2]. apply (f_equal (@length bool)) in E1, E2. rewrite app_length, full_length in E1, E2. cbn in E1, E2. lia.
Qed.

Definition zipx (l m : list bool) : list bool := map (fun p => xorb (fst p) (snd p)) (combine l m).
Lemma full_lxor a b : full (N.lxor a b) = zipx (full a) (full b).
Proof.
  unfold Key.full, top, zipx. induction (seq 0 WN) as [|i l IH]; cbn; [reflexivity|]. rewrite N.lxor_spec, IH. reflexivity.
Qed.
Lemma zipx_app q a b : zipx (q ++ a) (q ++ b) = repeat false (length q) ++ zipx a b.
Proof. induction q as [|c q IH]; cbn; [reflexivity|]. rewrite xorb_nilpotent. unfold zipx in IH. rewrite IH. reflexivity. Qed.
Lemma cnt_app b l m : cnt b (l ++ m) = cnt b l + cnt b m.
Proof. induction l as [|x l IH]; cbn [cnt app]; [reflexivity|]. rewrite IH. lia. Qed.
Lemma cnt_repeat_false n : cnt false (repeat false n) = N.of_nat n.
Proof. induction n as [|n IH]; cbn [repeat cnt Bool.eqb]; [reflexivity|]. rewrite IH. lia. Qed.
Lemma cnt_zipx a : forall b, length b = length a -> (cnt false (zipx a b) = 0 <-> b = map negb a).
Proof.
  induction a as [|x a IH]; intros [|y b] L; try discriminate; cbn; [tauto|]. injection L as L.
  destruct x, y; cbn [xorb negb Bool.eqb].
  - split; [lia|]. intros E. discriminate.
  - change (0 + cnt false (zipx a b) = 0 <-> false :: b = false :: map negb a). rewrite N.add_0_l, (IH b L). split; congruence.
  - change (0 + cnt false (zipx a b) = 0 <-> true :: b = true :: map negb a). rewrite N.add_0_l, (IH b L). split; congruence.
  - split; [lia|]. intros E. discriminate.
Qed.
Lemma lxor_lt a b : a < 2 ^ W -> b < 2 ^ W -> N.lxor a b < 2 ^ W.
Proof.
  intros A B. apply bits_lt. intros i Hi. rewrite N.lxor_spec, !(testbit_high W) by auto. reflexivity.
Qed.

Lemma clz_fork' a b q ra rb : a < 2 ^ W -> b < 2 ^ W -> fork a b q ra rb -> clz W (N.lxor a b) = nlen q.
Proof.
  intros A B [E1 E2]. eapply (clz_fork W a b q false ra rb WN WN); auto; try lia; try exact E1; try exact E2.
Qed.
Lemma pop_fork a b q ra rb : a < 2 ^ W -> b < 2 ^ W -> fork a b q ra rb ->
  popcount (wnot W (N.lxor a b)) = nlen q + cnt false (zipx ra rb).
Proof.
  intros A B [E1 E2]. pose proof (lxor_lt a b A B) as X. rewrite (popcount_cnt W) by (apply wnot_lt; auto).
  rewrite full_wnot, cnt_negb, full_lxor, E1, E2, zipx_app, cnt_app, cnt_repeat_false.
  change (zipx (false :: ra) (true :: rb)) with (true :: zipx ra rb). cbn [cnt negb Bool.eqb]. reflexivity.
Qed.

Variable peq : snode -> snode -> bool.
Hypothesis peq_sound : forall a b, peq a b = true -> a = b.

(* one step of the conversion *)
Lemma point_test : clz W 0 = popcount (wnot W 0).
Proof.
  assert (E1 : clz W 0 = W) by (unfold clz; cbn; lia).
  assert (E2 : popcount (wnot W 0) = W).
  { unfold wnot. rewrite N.lxor_0_l. rewrite (popcount_cnt W) by (rewrite N.ones_equiv; pose proof (pow2_pos W); lia).
    rewrite N.ones_equiv. replace (N.pred (2 ^ W)) with (2 ^ W - 2 ^ (W - W)) by (rewrite N.sub_diag; cbn; lia).
    rewrite full_mask by lia. rewrite cnt_app. replace (W - W) with 0 by lia. cbn [N.to_nat repeat cnt]. 
    transitivity (N.of_nat WN); [|lia]. generalize WN. clear. induction n as [|n IH]; cbn [repeat cnt Bool.eqb]; [reflexivity|]. lia. }
  congruence.
Qed.
Lemma step_point fuel a : a < 2 ^ W -> from_range W peq (S fuel) (mkRange a a) = Ok (setNodeFromPrefix (mkPrefix a W)).
Proof.
  intros A. cbn [from_range rfirst rlast]. rewrite N.lxor_nilpotent.
  assert (E1 : clz W 0 = W) by (unfold clz; cbn; lia).
  assert (E2 : popcount (wnot W 0) = W).
  { unfold wnot. rewrite N.lxor_0_l. rewrite (popcount_cnt W) by (rewrite N.ones_equiv; pose proof (pow2_pos W); lia).
    rewrite N.ones_equiv. replace (N.pred (2 ^ W)) with (2 ^ W - 2 ^ (W - W)) by (rewrite N.sub_diag; cbn; lia).
    rewrite full_mask by lia. rewrite cnt_app. replace (W - W) with 0 by lia. cbn [N.to_nat repeat cnt]. 
    transitivity (N.of_nat WN); [|lia]. generalize WN. clear. induction n as [|n IH]; cbn [repeat cnt Bool.eqb]; [reflexivity|]. lia. }
  rewrite E1, E2, N.eqb_refl. reflexivity.
Qed.

Definition pivot (q : list bool) : N := val (q ++ true :: repeat false (WN - length q - 1)).
(* what the code computes when the bounds part after q *)
Lemma step_facts a b q ra rb : a < 2 ^ W -> b < 2 ^ W -> fork a b q ra rb ->
  clz W (N.lxor a b) = nlen q /\
  N.lor (N.land a (wshl W (N.ones W) (W - nlen q))) (wshr W (2 ^ (W - 1)) (nlen q)) = pivot q /\
  wsub W (pivot q) 1 = pivot q - 1 /\
  ((nlen q =? popcount (wnot W (N.lxor a b))) = true <-> rb = map negb ra).
Proof.
  intros A B F. destruct (fork_len _ _ _ _ _ F) as [L1 L2].
  rewrite (clz_fork' a b q ra rb A B F), (pop_fork a b q ra rb A B F). split; [reflexivity|].
  assert (EP : N.lor (N.land a (wshl W (N.ones W) (W - nlen q))) (wshr W (2 ^ (W - 1)) (nlen q)) = pivot q).
  { set (p := mkPrefix a (nlen q)).
    assert (Hp : wf_prefix W p) by (split; cbn; [exact A|unfold nlen; lia]).
    assert (Hl : plen p < W) by (cbn; unfold nlen; lia).
    pose proof (Halves_eq W p Hp Hl) as HE. unfold Halves in HE. apply N.ltb_lt in Hl as Hl'. rewrite Hl' in HE.
    apply (f_equal snd) in HE. cbn [snd] in HE. apply (f_equal paddr) in HE. cbn [paddr] in HE.
    unfold Network, prefix_mask, lengthToMask in HE. cbn [paddr plen p] in HE. rewrite HE.
    fold p. rewrite half_addr by auto.
    assert (KE : key p = q).
    { destruct F as [F1 _]. unfold Bits.key. cbn [paddr plen p]. unfold nlen. rewrite Nat2N.id.
      rewrite <- (top_firstn W a (length q) WN) by lia. change (top W a WN) with (full a). rewrite F1.
      rewrite firstn_app, Nat.sub_diag, firstn_all. cbn. apply app_nil_r. }
    rewrite KE. cbn [plen p]. unfold pivot. rewrite val_app. cbn [val]. rewrite nlen_cons, nlen_repeat, val_repeat_false.
    unfold nlen. replace (N.of_nat (WN - length q - 1)) with (W - N.of_nat (length q) - 1) by lia.
    rewrite N.pow_add_r. change (2 ^ 1) with 2. lia. }
  assert (P1 : 0 < pivot q).
  { unfold pivot. rewrite val_app. cbn [val]. pose proof (pow2_pos (nlen (repeat false (WN - length q - 1)))). lia. }
  assert (P2 : pivot q < 2 ^ W).
  { unfold pivot. pose proof (val_lt (q ++ true :: repeat false (WN - length q - 1))) as V.
    replace (nlen (q ++ true :: repeat false (WN - length q - 1))) with W in V; auto.
    unfold nlen. rewrite app_length. cbn. rewrite repeat_length. lia. }
  assert (ES : wsub W (pivot q) 1 = pivot q - 1).
  { unfold wsub. assert (1 < 2 ^ W) by (apply N.pow_gt_1; lia). rewrite (N.mod_small 1) by auto.
    replace (pivot q + (2 ^ W - 1)) with (pivot q - 1 + 1 * 2 ^ W) by lia. rewrite N.mod_add by lia. apply N.mod_small. lia. }
  split; [exact EP|]. split; [exact ES|]. pose proof (cnt_zipx ra rb L2) as CZ. rewrite <- CZ. rewrite N.eqb_eq. lia.
Qed.
Lemma step_fork fuel a b q ra rb : a < 2 ^ W -> b < 2 ^ W -> fork a b q ra rb ->
  from_range W peq (S fuel) (mkRange a b) =
    if keq rb (map negb ra) then Ok (setNodeFromPrefix (mkPrefix a (nlen q)))
    else bind (from_range W peq fuel (mkRange a (pivot q - 1))) (fun x =>
         bind (from_range W peq fuel (mkRange (pivot q) b)) (fun y => Union W peq x y)).
Proof.
  intros A B F. destruct (step_facts a b q ra rb A B F) as (E1 & E2 & E3 & E4). cbn [from_range rfirst rlast].
  rewrite E1, E2, E3. destruct (nlen q =? popcount (wnot W (N.lxor a b))), (keq rb (map negb ra)) as [E|E]; try reflexivity.
  - exfalso. apply E, E4. reflexivity.
  - apply E4 in E. discriminate.
Qed.

Lemma full_pivot q : (length q < WN)%nat -> full (pivot q) = q ++ true :: repeat false (WN - length q - 1).
Proof. intros L. apply full_val. unfold nlen. rewrite app_length. cbn. rewrite repeat_length. lia. Qed.
Lemma pivot_pred q : (length q < WN)%nat -> pivot q - 1 = val (q ++ false :: repeat true (WN - length q - 1)) /\ 0 < pivot q /\ pivot q < 2 ^ W.
Proof.
  intros L. unfold pivot. rewrite !val_app. cbn [val]. rewrite !nlen_cons, !nlen_repeat, val_repeat_false, val_repeat_true.
  pose proof (pow2_pos (N.of_nat (WN - length q - 1))). split; [lia|]. split; [lia|].
  pose proof (val_lt q) as V. rewrite N.pow_add_r. change (2 ^ 1) with 2.
  assert (2 ^ W = 2 ^ nlen q * (2 * 2 ^ N.of_nat (WN - length q - 1))) as ->.
  { rewrite <- N.pow_succ_r', <- N.pow_add_r. f_equal. unfold nlen. lia. }
  nia.
Qed.
Lemma full_pivot_pred q : (length q < WN)%nat -> full (pivot q - 1) = q ++ false :: repeat true (WN - length q - 1).
Proof. intros L. destruct (pivot_pred q L) as [-> _]. apply full_val. unfold nlen. rewrite app_length. cbn. rewrite repeat_length. lia. Qed.

(* strings under q and values *)
Lemma pre_val q x : length x = WN -> (length q <= WN)%nat ->
  pre q x <-> val (q ++ repeat false (WN - length q)) <= val x /\ val x <= val (q ++ repeat true (WN - length q)).
Proof.
  intros Lx Lq. rewrite !val_app, !nlen_repeat, val_repeat_false, val_repeat_true.
  set (m := N.of_nat (WN - length q)).
  assert (Ex : val x = val (firstn (length q) x) * 2 ^ m + val (skipn (length q) x)).
  { rewrite <- (firstn_skipn (length q) x) at 1. rewrite val_app. unfold nlen. rewrite skipn_length. unfold m. do 3 f_equal. lia. }
  assert (LS : val (skipn (length q) x) < 2 ^ m).
  { pose proof (val_lt (skipn (length q) x)) as V. unfold nlen in V. rewrite skipn_length in V. unfold m. rewrite Lx in V. exact V. }
  rewrite pre_firstn. split.
  - intros E. rewrite E in Ex. pose proof (pow2_pos m). lia.
  - intros [A B]. apply val_inj; [rewrite firstn_length; lia|]. rewrite Ex in A, B. pose proof (pow2_pos m).
    assert (val (firstn (length q) x) < val q + 1) by nia. assert (val q < val (firstn (length q) x) + 1) by nia. lia.
Qed.

Definition within (a b : N) (x : list bool) : Prop := a <= val x /\ val x <= b.

(* the shape of the trouble case, in strings *)
Definition twisted (a b : N) : Prop := exists q ra, fork a b q ra (map negb ra) /\ ra <> repeat false (length ra).

Lemma pre_both_within k a b x : pre k (full a) -> pre k (full b) -> a < 2 ^ W -> b < 2 ^ W -> length x = WN -> within a b x -> pre k x.
Proof.
  intros Ka Kb A B Lx [H1 H2]. pose proof (pre_length _ _ Ka) as Lk. rewrite full_length in Lk.
  rewrite (pre_val k x Lx Lk). rewrite (pre_val k (full a)), (pre_val k (full b)) in * by (rewrite ?full_length; lia).
  rewrite val_full in * by auto. lia.
Qed.

(* the two halves of a split range *)
Lemma split_facts fuel a b q ra rb : b < 2 ^ W -> a < 2 ^ W -> fork a b q ra rb -> (WN - length q < S fuel)%nat ->
  a <= pivot q - 1 /\ pivot q <= b /\ pivot q < 2 ^ W /\ (0 < fuel)%nat /\
  (forall q' x y, fork a (pivot q - 1) q' x y -> (WN - length q' < fuel)%nat) /\
  (forall q' x y, fork (pivot q) b q' x y -> (WN - length q' < fuel)%nat) /\
  pre (q ++ [false]) (full a) /\ pre (q ++ [false]) (full (pivot q - 1)) /\ pre (q ++ [true]) (full (pivot q)) /\ pre (q ++ [true]) (full b).
Proof.
  intros B A FK FL. destruct (fork_len _ _ _ _ _ FK) as [L1 L2].
    assert (Lq : (length q < WN)%nat) by lia.
    pose proof (full_pivot q Lq) as FP. pose proof (full_pivot_pred q Lq) as FPP. destruct (pivot_pred q Lq) as (_ & P0 & P1).
    destruct FK as [F1 F2].
    assert (AP : a <= pivot q - 1).
    { rewrite <- (val_full W a A), <- (val_full W (pivot q - 1)) by lia. rewrite F1, FPP, !val_app. cbn [val]. rewrite !nlen_cons, nlen_repeat, val_repeat_true.
      pose proof (val_lt ra) as V. unfold nlen in *. replace (WN - length q - 1)%nat with (length ra) by lia. lia. }
    assert (PB : pivot q <= b).
    { rewrite <- (val_full W b B), <- (val_full W (pivot q)) by lia. rewrite F2, FP, !val_app. cbn [val]. rewrite !nlen_cons, nlen_repeat, val_repeat_false.
      unfold nlen in *. replace (WN - length q - 1)%nat with (length rb) by lia. lia. }
    assert (SH : forall (c : bool) u v u' v', q ++ c :: u = full u' -> q ++ c :: v = full v' ->
       (forall q' x y, fork u' v' q' x y -> (WN - length q' < fuel)%nat) /\
       (forall q' x y, fork u' v' q' x y -> exists w, q' = q ++ c :: w /\ u = w ++ false :: x /\ v = w ++ true :: y)).
    { intros c u v u' v' Eu Ev.
      assert (S2 : forall q' x y, fork u' v' q' x y -> exists w, q' = q ++ c :: w /\ u = w ++ false :: x /\ v = w ++ true :: y).
      { intros q' x y [G1 G2].
        assert (PQ : pre (q ++ [c]) q').
        { eapply (pre_fork _ q' false x y); cbn [negb]; [rewrite <- G1, <- Eu; apply pre_snoc_cons|rewrite <- G2, <- Ev; apply pre_snoc_cons]. }
        destruct PQ as [w ->]. exists w. rewrite <- snoc_cons in *. split; [reflexivity|].
        rewrite <- Eu in G1. rewrite <- Ev in G2. rewrite <- app_assoc in G1, G2. cbn [app] in G1, G2.
        apply app_inv_head in G1. apply app_inv_head in G2. injection G1 as ->. injection G2 as ->. auto. }
      split; [|exact S2]. intros q' x y G. destruct (S2 q' x y G) as (w & -> & _). rewrite app_length. cbn. lia. }
    destruct (SH false ra (repeat true (WN - length q - 1)) a (pivot q - 1) ltac:(auto) ltac:(auto)) as [SF1 SS1].
    destruct (SH true (repeat false (WN - length q - 1)) rb (pivot q) b ltac:(auto) ltac:(auto)) as [SF2 SS2].
    split; [exact AP|]. split; [exact PB|]. split; [exact P1|]. split; [lia|]. split; [exact SF1|]. split; [exact SF2|].
    rewrite F1, FPP, FP, F2. repeat split; apply pre_snoc_cons.
Qed.
Lemma from_range_ok fuel : forall a b, a <= b -> b < 2 ^ W ->
  (0 < fuel)%nat -> (forall q ra rb, fork a b q ra rb -> (WN - length q < fuel)%nat) ->
  exists t, from_range W peq fuel (mkRange a b) = Ok t /\
    (forall k, pre k (full a) -> pre k (full b) -> swf k t) /\
    (~ twisted a b -> Forall (canonical W) (stored t) /\ (forall x, length x = WN -> den t x <-> within a b x)) /\
    (forall q ra, fork a b q ra (map negb ra) -> t = setNodeFromPrefix (mkPrefix a (nlen q))).
Proof.
  induction fuel as [|fuel IH]; intros a b AB B F0 F; [lia|].
  assert (A : a < 2 ^ W) by lia.
  destruct (N.eq_dec a b) as [<-|NE].
  { exists (setNodeFromPrefix (mkPrefix a W)). split; [apply step_point; auto|]. split; [|split].
    - intros k Ka _. apply swf_leaf; [split; cbn; lia|exact Ka].
    - intros _. split.
      + constructor; [|constructor]. unfold canonical, net. cbn [paddr plen]. rewrite N.sub_diag. cbn. rewrite N.div_1_r. lia.
      + intros x Lx. rewrite den_leaf, key_full. unfold within. split.
        * intros P. apply pre_eq_length in P; [|rewrite full_length; lia]. rewrite <- P, val_full by auto. lia.
        * intros [H1 H2]. assert (full a = x) as ->; [|apply pre_refl]. apply val_inj; [rewrite full_length; lia|]. rewrite val_full by auto. lia.
    - intros q ra [E1 E2]. exfalso. rewrite E1 in E2. apply app_inv_head in E2. discriminate. }
  destruct (fork_exists a b ltac:(lia) B) as (q & ra & rb & FK). rewrite (step_fork fuel a b q ra rb A B FK).
  destruct (fork_len _ _ _ _ _ FK) as [L1 L2]. pose proof (F q ra rb FK) as FL.
  assert (UQ : forall q' ra', fork a b q' ra' (map negb ra') -> q' = q /\ ra' = ra /\ rb = map negb ra).
  { intros q' ra' [E1 E2]. destruct FK as [G1 G2].
    assert (nlen q' = nlen q) as LL.
    { rewrite <- (clz_fork' a b q' ra' _ A B (conj E1 E2)). rewrite (clz_fork' a b q ra rb A B (conj G1 G2)). reflexivity. }
    assert (length q' = length q) as LL' by (unfold nlen in LL; lia).
    rewrite G1 in E1. rewrite G2 in E2. 
    assert (q = q') as <-.
    { apply (f_equal (firstn (length q))) in E1. rewrite <- LL' in E1 at 2. rewrite !firstn_app, !firstn_all, LL', !Nat.sub_diag in E1. cbn in E1. rewrite !app_nil_r in E1. exact E1. }
    apply app_inv_head in E1. injection E1 as <-. apply app_inv_head in E2. injection E2 as E2. auto. }
  assert (KE : key (mkPrefix a (nlen q)) = q).
  { destruct FK as [F1 _]. unfold Bits.key. cbn [paddr plen]. unfold nlen. rewrite Nat2N.id.
    rewrite <- (top_firstn W a (length q) WN) by lia. change (top W a WN) with (full a). rewrite F1.
    rewrite firstn_app, Nat.sub_diag, firstn_all. cbn. apply app_nil_r. }
  assert (KQ : forall k, pre k (full a) -> pre k (full b) -> pre k q).
  { intros k Ka Kb. destruct FK as [F1 F2]. rewrite F1 in Ka. rewrite F2 in Kb. exact (pre_fork k q false ra rb Ka Kb). }
  destruct (keq rb (map negb ra)) as [E|E].
  - (* a single prefix *)
    exists (setNodeFromPrefix (mkPrefix a (nlen q))). split; [reflexivity|]. split; [|split].
    + intros k Ka Kb. apply swf_leaf; [split; cbn; [exact A|unfold nlen; lia]|]. rewrite KE. apply KQ; auto.
    + intros NT. assert (ZA : ra = repeat false (length ra)).
      { destruct (keq ra (repeat false (length ra))) as [Z|Z]; auto. exfalso. apply NT. exists q, ra. rewrite <- E. auto. }
      assert (VA : a = val (q ++ repeat false (WN - length q))).
      { rewrite <- (val_full W a A). destruct FK as [F1 _]. rewrite F1, ZA. f_equal. f_equal. replace (WN - length q)%nat with (S (length ra)) by lia. reflexivity. }
      assert (VB : b = val (q ++ repeat true (WN - length q))).
      { rewrite <- (val_full W b B). destruct FK as [_ F2]. rewrite F2, E, ZA. f_equal. f_equal. replace (WN - length q)%nat with (S (length ra)) by lia.
        cbn. f_equal. clear. induction (length ra) as [|n IH]; cbn; [reflexivity|]. rewrite IH. reflexivity. }
      split.
      * constructor; [|constructor]. unfold canonical. rewrite (net_key W) by (split; cbn; [exact A|unfold nlen; lia]). rewrite KE. cbn [paddr plen].
        rewrite VA. rewrite val_app, val_repeat_false, nlen_repeat. unfold nlen. replace (N.of_nat (WN - length q)) with (W - N.of_nat (length q)) by lia. lia.
      * intros x Lx. rewrite den_leaf, KE. rewrite (pre_val q x Lx) by lia. unfold within. rewrite <- VA, <- VB. reflexivity.
    + intros q' ra' FK'. destruct (UQ q' ra' FK') as (-> & _). reflexivity.
  - (* split *)
    assert (Lq : (length q < WN)%nat) by lia.
    pose proof (full_pivot q Lq) as FP. pose proof (full_pivot_pred q Lq) as FPP. destruct (pivot_pred q Lq) as (_ & P0 & P1).
    destruct FK as [F1 F2].
    assert (AP : a <= pivot q - 1).
    { rewrite <- (val_full W a A), <- (val_full W (pivot q - 1)) by lia. rewrite F1, FPP, !val_app. cbn [val]. rewrite !nlen_cons, nlen_repeat, val_repeat_true.
      pose proof (val_lt ra) as V. unfold nlen in *. replace (WN - length q - 1)%nat with (length ra) by lia. lia. }
    assert (PB : pivot q <= b).
    { rewrite <- (val_full W b B), <- (val_full W (pivot q)) by lia. rewrite F2, FP, !val_app. cbn [val]. rewrite !nlen_cons, nlen_repeat, val_repeat_false.
      unfold nlen in *. replace (WN - length q - 1)%nat with (length rb) by lia. lia. }
    assert (SH : forall (c : bool) u v u' v', q ++ c :: u = full u' -> q ++ c :: v = full v' ->
       (forall q' x y, fork u' v' q' x y -> (WN - length q' < fuel)%nat) /\
       (forall q' x y, fork u' v' q' x y -> exists w, q' = q ++ c :: w /\ u = w ++ false :: x /\ v = w ++ true :: y)).
    { intros c u v u' v' Eu Ev.
      assert (S2 : forall q' x y, fork u' v' q' x y -> exists w, q' = q ++ c :: w /\ u = w ++ false :: x /\ v = w ++ true :: y).
      { intros q' x y [G1 G2].
        assert (PQ : pre (q ++ [c]) q').
        { eapply (pre_fork _ q' false x y); cbn [negb]; [rewrite <- G1, <- Eu; apply pre_snoc_cons|rewrite <- G2, <- Ev; apply pre_snoc_cons]. }
        destruct PQ as [w ->]. exists w. rewrite <- snoc_cons in *. split; [reflexivity|].
        rewrite <- Eu in G1. rewrite <- Ev in G2. rewrite <- app_assoc in G1, G2. cbn [app] in G1, G2.
        apply app_inv_head in G1. apply app_inv_head in G2. injection G1 as ->. injection G2 as ->. auto. }
      split; [|exact S2]. intros q' x y G. destruct (S2 q' x y G) as (w & -> & _). rewrite app_length. cbn. lia. }
    destruct (SH false ra (repeat true (WN - length q - 1)) a (pivot q - 1) ltac:(auto) ltac:(auto)) as [SF1 SS1].
    destruct (SH true (repeat false (WN - length q - 1)) rb (pivot q) b ltac:(auto) ltac:(auto)) as [SF2 SS2].
    destruct (IH a (pivot q - 1) AP ltac:(lia) ltac:(lia) SF1) as (t1 & -> & W1 & X1 & _).
    destruct (IH (pivot q) b PB B ltac:(lia) SF2) as (t2 & -> & W2 & X2 & _). cbn [bind].
    assert (NT1 : ~ twisted a (pivot q - 1)).
    { intros (q' & x & G & NZ). destruct (SS1 _ _ _ G) as (w & _ & _ & G2). apply NZ.
      assert (AllT : Forall (fun c => c = true) (w ++ true :: map negb x)) by (rewrite <- G2; clear; induction (WN - length q - 1)%nat; cbn; auto).
      apply Forall_app in AllT. destruct AllT as [_ AllT]. inversion AllT as [|? ? _ AT]; subst. clear - AT.
      induction x as [|c x IH]; [reflexivity|]. cbn in AT. inversion AT as [|? ? E1 E2]; subst. cbn. f_equal; [destruct c; auto; discriminate|apply IH; auto]. }
    assert (NT2 : ~ twisted (pivot q) b).
    { intros (q' & x & G & NZ). destruct (SS2 _ _ _ G) as (w & _ & G2 & _). apply NZ.
      assert (AllT : Forall (fun c => c = false) (w ++ false :: x)) by (rewrite <- G2; clear; induction (WN - length q - 1)%nat; cbn; auto).
      apply Forall_app in AllT. destruct AllT as [_ AllT]. inversion AllT as [|? ? _ AT]; subst. clear - AT.
      induction x as [|c x IH]; [reflexivity|]. inversion AT as [|? ? E1 E2]; subst. cbn. f_equal. apply IH; auto. }
    destruct (X1 NT1) as [C1 D1]. destruct (X2 NT2) as [C2 D2].
    assert (S1 : swf (q ++ [false]) t1) by (apply W1; [rewrite F1|rewrite FPP]; apply pre_snoc_cons).
    assert (S2 : swf (q ++ [true]) t2) by (apply W2; [rewrite FP|rewrite F2]; apply pre_snoc_cons).
    destruct (union_sides W HW peq peq_sound q q t1 t2 (pre_refl _) S1 S2) as (t & EU & St & Dt).
    exists t. split; [exact EU|]. split; [|split].
    + intros k Ka Kb. eapply swf_weaken; [|exact St]. apply KQ; auto.
    + intros _. split; [exact (clean_sides W HW peq peq_sound q q t1 t2 t (pre_refl _) S1 S2 C1 C2 EU)|].
      intros x Lx. rewrite (Dt x Lx), (D1 x Lx), (D2 x Lx). unfold within. lia.
    + intros q' ra' FK'. destruct (UQ q' ra' FK') as (_ & _ & EE). contradiction.
Qed.

Lemma setNodeFromRange_ok r : wf_range W r ->
  exists t, setNodeFromRange W peq r = Ok t /\ swf [] t /\
    (~ twisted (rfirst r) (rlast r) -> Forall (canonical W) (stored t) /\ (forall x, length x = WN -> den t x <-> within (rfirst r) (rlast r) x)) /\
    (forall q ra, fork (rfirst r) (rlast r) q ra (map negb ra) -> t = setNodeFromPrefix (mkPrefix (rfirst r) (nlen q))).
Proof.
  intros [H1 H2]. destruct r as [a b]. cbn [rfirst rlast] in *. unfold setNodeFromRange.
  destruct (from_range_ok (S (S WN)) a b H1 H2 ltac:(lia)) as (t & E & S' & X & Y).
  { intros q ra rb F. apply fork_len in F. lia. }
  exists t. split; [exact E|]. split; [apply S'; apply pre_nil|]. auto.
Qed.

(* the trouble case in arithmetic *)
Lemma val_negb l : val (map negb l) = 2 ^ nlen l - 1 - val l.
Proof.
  induction l as [|b l IH]; cbn [map val]; [reflexivity|]. rewrite IH. assert (nlen (map negb l) = nlen l) as -> by (unfold nlen; rewrite map_length; reflexivity).
  pose proof (val_lt l). rewrite nlen_cons, N.pow_add_r. change (2 ^ 1) with 2. destruct b; cbn [negb]; lia.
Qed.
Lemma val_zero l : val l = 0 <-> l = repeat false (length l).
Proof.
  split; [|intros ->; apply val_repeat_false]. intros E. apply val_inj; [rewrite repeat_length; reflexivity|].
  rewrite E. symmetry. apply val_repeat_false.
Qed.
Lemma centred_fork r k c x : rlast r < 2 ^ W -> 0 < x -> x < 2 ^ (k - 1) -> 0 < k -> k <= W ->
  rfirst r = c * 2 ^ k + x -> rlast r + x + 1 = (c + 1) * 2 ^ k ->
  exists q ra, fork (rfirst r) (rlast r) q ra (map negb ra) /\ ra <> repeat false (length ra) /\ nlen q = W - k /\ val q = c.
Proof.
  destruct r as [a b]. cbn [rfirst rlast]. intros H2 X1 X2 K1 K2 EA EB.
  set (m := N.to_nat (k - 1)). assert (EK : 2 ^ k = 2 * 2 ^ (k - 1)) by (rewrite <- N.pow_succ_r'; f_equal; lia).
  set (ra := top (k - 1) x m).
  assert (LR : length ra = m) by apply top_length.
  assert (VR : val ra = x). { unfold ra. rewrite val_top by lia. replace (k - 1 - N.of_nat m) with 0 by lia. apply N.div_1_r. }
  assert (C : c < 2 ^ (W - k)).
  { assert (2 ^ W = 2 ^ (W - k) * 2 ^ k) as EW by (rewrite <- N.pow_add_r; f_equal; lia). nia. }
  set (q := top (W - k) c (N.to_nat (W - k))).
  assert (LQ : length q = N.to_nat (W - k)) by apply top_length.
  assert (VQ : val q = c). { unfold q. rewrite val_top by lia. replace (W - k - N.of_nat (N.to_nat (W - k))) with 0 by lia. apply N.div_1_r. }
  exists q, ra. split; [split|split].
  + apply val_inj; [rewrite full_length, app_length; cbn; lia|]. rewrite val_full by lia. rewrite val_app. cbn [val]. rewrite nlen_cons, VQ, VR.
    unfold nlen. rewrite LR. replace (N.of_nat m + 1) with k by lia. lia.
  + apply val_inj; [rewrite full_length, app_length; cbn; rewrite map_length; lia|]. rewrite val_full by lia. rewrite val_app. cbn [val]. rewrite nlen_cons, VQ, val_negb, VR.
    unfold nlen. rewrite map_length, LR. replace (N.of_nat m) with (k - 1) by lia. replace (k - 1 + 1) with k by lia. lia.
  + intros Z. apply val_zero in Z. lia.
  + split; [unfold nlen; lia|exact VQ].
Qed.
Lemma twisted_centred r : wf_range W r -> twisted (rfirst r) (rlast r) <-> centred W r.
Proof.
  intros [H1 H2]. destruct r as [a b]. cbn [rfirst rlast] in *. unfold twisted, centred. cbn [rfirst rlast]. split.
  - intros (q & ra & F & NZ). destruct (fork_len _ _ _ _ _ F) as [L1 _]. destruct F as [F1 F2].
    exists (nlen ra + 1), (val q), (val ra).
    assert (VA : a = val q * 2 ^ (nlen ra + 1) + val ra) by (rewrite <- (val_full W a ltac:(lia)), F1, val_app; cbn [val]; rewrite nlen_cons; lia).
    assert (VB : b = val q * 2 ^ (nlen ra + 1) + 2 ^ nlen ra + (2 ^ nlen ra - 1 - val ra)).
    { rewrite <- (val_full W b ltac:(lia)), F2, val_app. cbn [val]. rewrite val_negb, nlen_cons. unfold nlen. rewrite map_length. lia. }
    assert (val ra <> 0) by (intros E; apply NZ; apply val_zero; exact E).
    pose proof (val_lt ra). replace (nlen ra + 1 - 1) with (nlen ra) by lia. rewrite N.pow_add_r in *. change (2 ^ 1) with 2 in *.
    repeat split; try lia. unfold nlen. lia.
  - intros (k & c & x & X1 & X2 & K1 & K2 & EA & EB).
    destruct (centred_fork (mkRange a b) k c x) as (q & ra & F & NZ & _); auto. exists q, ra. auto.
Qed.
End RangeProof.
