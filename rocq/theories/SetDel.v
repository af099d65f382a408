(* SetDel.v - insert and del of single prefixes on set tries (setNode.Insert,
   setNode.Remove); proofs. *)
From Verif Require Export SetThm2 SetAbsorb RangeProof.
From Coq Require Import Arith Lia ZifyBool ZifyNat ZifyN.

Section SetDel.
Variable W : N.
Hypothesis HW : 0 < W /\ W < 2 ^ 15.
Notation key := (key W).
Notation swf := (swf W).
Notation room := (room W).
Notation den := (den W).
Notation full := (full W).
Notation WN := (N.to_nat W).
Variable peq : snode -> snode -> bool.
Hypothesis peq_sound : forall a b, peq a b = true -> a = b.
Implicit Types (t : snode).
Notation opts := {| o_insert := true; o_update := true; o_flatten := true; o_eq := nil_eq |}.
Notation leaf := setNodeFromPrefix.

(* an inactive node of t sits at k *)
Fixpoint joins (k : list bool) t : Prop :=
  match t with Nil => False | Node p _ _ _ a l r => (a = false /\ key p = k) \/ joins k l \/ joins k r end.
Lemma joins_pre k : forall t x, swf x t -> joins k t -> pre x k.
Proof.
  induction t as [|p d s h a l IHl r IHr]; intros x H J; cbn [joins] in J; [contradiction|].
  pose proof (swf_pre W _ _ _ _ _ _ _ _ H) as P. destruct J as [[_ E]|[J|J]].
  - subst k. exact P.
  - eapply pre_trans; [exact P|]. eapply pre_app. exact (IHl _ (swf_l W _ _ _ _ _ _ _ _ H) J).
  - eapply pre_trans; [exact P|]. eapply pre_app. exact (IHr _ (swf_r W _ _ _ _ _ _ _ _ H) J).
Qed.
Lemma insert_leaf p : insert_nil p (@None unit) opts = (leaf p, None).
Proof. reflexivity. Qed.
Lemma mk_opt_active p : mk_opt true p (@None unit) true Nil Nil = Ok (leaf p).
Proof. reflexivity. Qed.
Lemma eta_p (p : prefix) : mkPrefix (paddr p) (plen p) = p. Proof. destruct p; reflexivity. Qed.

Lemma mk_opt_total p y z : y <> Nil -> z <> Nil -> exists w : snode, mk_opt true p None false y z = Ok w.
Proof.
  intros Ny Nz. unfold mk_opt, flatten. destruct y as [|py ? ? ? ay ? ?]; [congruence|]. destruct z as [|pz ? ? ? az ? ?]; [congruence|].
  destruct (plen py =? plen pz); cbn [negb bind]; [|eexists; reflexivity]. destruct (plen py =? plen p + 1); cbn [negb bind]; [|eexists; reflexivity].
  destruct ay, az; cbn [negb orb bind]; eexists; reflexivity.
Qed.
(* at a join: nothing happens *)
Lemma insert_join p : wf_prefix W p -> forall t k, swf k t -> joins (key p) t -> insert W t p None opts = Ok (t, None).
Proof.
  intros Hp. induction t as [|q d s h a l IHl r IHr]; intros k H J; [contradiction|]. cbn [insert].
  pose proof (swf_prefix W _ _ _ _ _ _ _ _ H) as Pq. pose proof (swf_l W _ _ _ _ _ _ _ _ H) as Hl. pose proof (swf_r W _ _ _ _ _ _ _ _ H) as Hr.
  assert (AF : a = false).
  { destruct a; auto. pose proof (swf_active W _ _ _ _ _ _ _ H) as X. injection X as _ _ _ -> ->. cbn [joins] in J. destruct J as [[J _]|[J|J]]; [discriminate|contradiction|contradiction]. }
  subst a. cbn [joins] in J.
  pose proof (Key.compare_spec W HW q p Pq Hp) as C.
  destruct J as [[_ J]|J].
  - destruct C as [E|c x E|c x E|x c ra rb rev E1 E2 Er]; cbn beta iota zeta; [reflexivity|exfalso..].
    + rewrite J in E. apply (f_equal (@length bool)) in E. rewrite app_length in E. cbn in E. lia.
    + rewrite J in E. apply (f_equal (@length bool)) in E. rewrite app_length in E. cbn in E. lia.
    + rewrite J, E2 in E1. apply app_inv_head in E1. injection E1. destruct c; discriminate.
  - assert (PK : exists c, pre (key q ++ [c]) (key p) /\ joins (key p) (kid c l r)).
    { destruct J as [J|J]; [exists false|exists true]; cbn [kid]; (split; [|exact J]); eapply joins_pre; [exact Hl|exact J|exact Hr|exact J]. }
    destruct PK as (c & [x EX] & JK). rewrite <- snoc_cons in EX.
    destruct C as [E|c' x' E|c' x' E|x' c' ra rb rev E1 E2 Er]; cbn beta iota zeta; try (exfalso; fail).
    + exfalso. rewrite E in EX. apply (f_equal (@length bool)) in EX. rewrite app_length in EX. cbn in EX. lia.
    + rewrite EX in E. apply app_inv_head in E. injection E as <- <-. cbn [o_flatten andb].
      assert (IK : insert W (kid c l r) p None opts = Ok (kid c l r, None)) by (destruct c; cbn [kid] in *; [eapply IHr; [exact Hr|exact JK]|eapply IHl; [exact Hl|exact JK]]).
      rewrite IK. cbn [bind].
      assert (EK : setl c (kid c l r) l = l /\ setr c (kid c l r) r = r) by (destruct c; split; reflexivity). destruct EK as [-> ->].
      pose proof (rebuild W k q d s h l r H) as RB. rewrite eta_p in RB. unfold newHead in RB.
      destruct (swf_inactive W _ _ _ _ _ _ _ H) as (EN & _). assert (d = None) as -> by (injection EN; auto). rewrite RB. reflexivity.
    + exfalso. rewrite E in EX. apply (f_equal (@length bool)) in EX. rewrite !app_length in EX. cbn in EX. lia.
    + exfalso. rewrite E1 in EX. rewrite E2, <- app_assoc in EX. apply app_inv_head in EX. injection EX. destruct c'; discriminate.
Qed.
(* elsewhere: the union with the prefix *)
Lemma insert_union p : wf_prefix W p -> forall t k fuel, swf k t -> (room t + room (leaf p) < fuel)%nat -> ~ joins (key p) t ->
  exists u, insert W t p None opts = Ok (u, None) /\ union W peq fuel t (leaf p) = Ok u.
Proof.
  intros Hp. induction t as [|q d s h a l IHl r IHr]; intros k fuel H F NJ; (destruct fuel as [|fuel]; [lia|]); cbn [insert union].
  { exists (leaf p). destruct (peq Nil (leaf p)) eqn:PE; [apply peq_sound in PE; discriminate|]. split; reflexivity. }
  pose proof (swf_prefix W _ _ _ _ _ _ _ _ H) as Pq. pose proof (swf_l W _ _ _ _ _ _ _ _ H) as Hl. pose proof (swf_r W _ _ _ _ _ _ _ _ H) as Hr.
  pose proof (Key.compare_spec W HW q p Pq Hp) as C. cbn [joins] in NJ.
  destruct (peq _ _) eqn:PE.
  { apply peq_sound in PE. injection PE as -> -> -> -> -> -> ->. exists (leaf p). split; [|reflexivity].
    destruct C as [E|c x E|c x E|x c ra rb rev E1 E2 Er]; cbn beta iota zeta; [reflexivity|reflexivity|exfalso..].
    - apply (f_equal (@length bool)) in E. rewrite app_length in E. cbn in E. lia.
    - rewrite E2 in E1. apply app_inv_head in E1. injection E1. destruct c; discriminate. }
  clear PE. unfold leaf at 1. cbn [setNodeFromPrefix].
  destruct C as [E|c x E|c x E|x c ra rb rev E1 E2 Er]; cbn beta iota zeta.
  - destruct a; [|tauto]. eexists. split; reflexivity.
  - cbn [o_flatten andb active child0 child1]. destruct a; [eexists; split; reflexivity|].
    assert (IK : exists u, insert W (kid c l r) p None opts = Ok (u, None) /\ union W peq fuel (kid c l r) (leaf p) = Ok u).
    { pose proof (room_kid W HW peq peq_sound _ _ _ _ _ _ _ _ c H) as RK.
      destruct c; cbn [kid] in *; [eapply IHr; [exact Hr|lia|tauto]|eapply IHl; [exact Hl|lia|tauto]]. }
    destruct IK as (u & IU & UU). rewrite IU. cbn [bind].
    assert (UR : (if c then bind (union W peq fuel r (leaf p)) (fun x0 => Ok (l, x0)) else bind (union W peq fuel l (leaf p)) (fun x0 => Ok (x0, r))) = Ok (setl c u l, setr c u r)).
    { destruct c; cbn [kid] in UU; rewrite UU; reflexivity. }
    change (Node p None 1 1 true Nil Nil) with (leaf p). rewrite UR. cbn [bind prefix_of]. rewrite eta_p. unfold newHead.
    destruct (swf_inactive W _ _ _ _ _ _ _ H) as (EN & _). assert (d = None) as -> by (injection EN; auto).
    assert (NN : exists z, mk_opt true q None false (setl c u l) (setr c u r) = Ok z).
    { assert (NU : u <> Nil).
      { intros ->. pose proof (union_ok W HW peq peq_sound fuel (key q ++ [c]) (kid c l r) (leaf p)) as UO. unfold union_post in UO. rewrite UU in UO.
        pose proof (room_kid W HW peq peq_sound _ _ _ _ _ _ _ _ c H) as RK.
        destruct UO as (y & Ey & _ & Ny & _); [lia|exact (swf_kid W _ _ _ _ _ _ _ _ c H)|apply swf_leaf; [exact Hp|rewrite E; apply pre_snoc_cons]|].
        injection Ey as <-. apply Ny; [right; discriminate|reflexivity]. }
      pose proof (kid_nonnil W k q None s h l r (negb c) H) as NK.
      destruct c; cbn [kid negb setl setr] in *; apply mk_opt_total; auto. }
    destruct NN as (z & ->). exists z. split; reflexivity.
  - cbn [o_insert negb o_flatten]. exists (leaf p). split; [destruct c; reflexivity|reflexivity].
  - rewrite insert_leaf.
    assert (NN : forall (y z : snode), y <> Nil -> z <> Nil -> exists w, mk_opt true (join_prefix W q (nlen x)) None false y z = Ok w).
    { intros; apply mk_opt_total; auto. }
    cbn [o_flatten prefix_of]. change (Node p None 1 1 true Nil Nil) with (leaf p). unfold newHead.
    destruct (xorb _ rev); [destruct (NN (Node q d s h a l r) (leaf p)) as (w & ->)|destruct (NN (leaf p) (Node q d s h a l r)) as (w & ->)]; try discriminate; exists w; split; reflexivity.
Qed.
Lemma snode_insert_join t p k : wf_prefix W p -> swf k t -> joins (key p) t -> snode_insert W t p = Ok t.
Proof. intros Hp H J. unfold snode_insert. rewrite (insert_join p Hp t k H J). reflexivity. Qed.
Lemma snode_insert_union t p k : wf_prefix W p -> swf k t -> ~ joins (key p) t -> snode_insert W t p = Union W peq t (leaf p).
Proof.
  intros Hp H J. unfold snode_insert, Union. destruct (insert_union p Hp t k (fuelW W) H) as (u & E & ->); auto; [|rewrite E; reflexivity].
  pose proof (room_max W HW peq peq_sound t). pose proof (room_max W HW peq peq_sound (leaf p)). unfold fuelW. lia.
Qed.

(* a join in terms of the addresses: t has some in both halves of the prefix, but not all *)
Lemma joins_below kk : forall t k q, swf k t -> joins kk t -> In q (stored t) -> ~ pre (key q) kk.
Proof.
  induction t as [|p d s h a l IHl r IHr]; intros k q H J I; [contradiction|].
  pose proof (swf_l W _ _ _ _ _ _ _ _ H) as Hl. pose proof (swf_r W _ _ _ _ _ _ _ _ H) as Hr.
  destruct a.
  { pose proof (swf_active W _ _ _ _ _ _ _ H) as X. injection X as _ _ _ -> ->. cbn [joins] in J. destruct J as [[J _]|[J|J]]; [discriminate|contradiction|contradiction]. }
  cbn [stored app] in I. cbn [joins] in J.
  assert (SW : forall c, In q (stored (kid c l r)) -> pre (key p ++ [c]) (key q)).
  { intros c I'. exact (proj2 (stored_wf W _ _ _ (proj1 (swf_kid W _ _ _ _ _ _ _ _ c H)) I')). }
  intros P. apply in_app_or in I. destruct J as [[_ J]|[J|J]].
  - destruct I as [I|I]; [pose proof (SW false I) as Q|pose proof (SW true I) as Q]; (eapply pre_snoc_not; eapply pre_trans; [exact Q|rewrite J; exact P]).
  - pose proof (joins_pre _ _ _ Hl J) as JP. destruct I as [I|I]; [eapply IHl; eauto|].
    pose proof (pre_trans _ _ _ (SW true I) P) as Q. pose proof (pre_snoc_inj _ _ _ _ JP Q). discriminate.
  - pose proof (joins_pre _ _ _ Hr J) as JP. destruct I as [I|I]; [|eapply IHr; eauto].
    pose proof (pre_trans _ _ _ (SW false I) P) as Q. pose proof (pre_snoc_inj _ _ _ _ JP Q). discriminate.
Qed.
Lemma joins_den kk : forall t k, swf k t -> (length kk <= WN)%nat ->
  joins kk t <-> (exists x, length x = WN /\ pre (kk ++ [false]) x /\ den t x) /\ (exists y, length y = WN /\ pre (kk ++ [true]) y /\ den t y) /\
    ~ (forall z, length z = WN -> pre kk z -> den t z).
Proof.
  intros t k H LK. split.
  - intros J. split; [|split].
    3:{ intros A. destruct (full_leaf W HW t k kk H LK A) as (q & I & P). exact (joins_below kk t k q H J I P). }
    all: clear LK; revert k H J; induction t as [|p d s h a l IHl r IHr]; intros k H J; [contradiction|];
      pose proof (swf_l W _ _ _ _ _ _ _ _ H) as Hl; pose proof (swf_r W _ _ _ _ _ _ _ _ H) as Hr; cbn [joins] in J;
      destruct J as [[-> <-]|[J|J]].
    1,4: destruct (swf_inactive W _ _ _ _ _ _ _ H) as (_ & Nl & Nr & _).
    + destruct (den_nonempty W _ _ Hl Nl) as (x & Lx & Dx). exists x. split; auto. split; [exact (den_pre W _ _ _ (proj1 Hl) Dx)|cbn; auto].
    + destruct (den_nonempty W _ _ Hr Nr) as (x & Lx & Dx). exists x. split; auto. split; [exact (den_pre W _ _ _ (proj1 Hr) Dx)|cbn; auto].
    + destruct (IHl _ Hl J) as (x & Lx & Px & Dx). exists x. cbn. auto.
    + destruct (IHr _ Hr J) as (x & Lx & Px & Dx). exists x. cbn. auto.
    + destruct (IHl _ Hl J) as (x & Lx & Px & Dx). exists x. cbn. auto.
    + destruct (IHr _ Hr J) as (x & Lx & Px & Dx). exists x. cbn. auto.
  - intros ((x & Lx & [u Px] & Dx) & (y & Ly & [v Py] & Dy) & NF). rewrite <- snoc_cons in Px, Py.
    revert k H NF Dx Dy. induction t as [|p d s h a l IHl r IHr]; intros k H NF Dx Dy; [contradiction|].
    pose proof (swf_l W _ _ _ _ _ _ _ _ H) as Hl. pose proof (swf_r W _ _ _ _ _ _ _ _ H) as Hr.
    destruct a.
    + exfalso. apply NF. intros z Lz Pz. apply (den_active W _ _ _ _ _ _ _ _ H) in Dx, Dy. apply (den_active W _ _ _ _ _ _ _ _ H).
      rewrite Px in Dx. rewrite Py in Dy. pose proof (pre_fork _ _ false _ _ Dx Dy) as P. eapply pre_trans; eauto.
    + apply (den_inactive W _ _ _ _ _ _ _ _ H) in Dx, Dy. cbn [joins].
      assert (KEY : forall c, pre (key p ++ [c]) x -> pre (key p ++ [negb c]) y -> key p = kk).
      { intros c [a Ea] [b Eb]. rewrite <- snoc_cons in Ea, Eb. apply pre_antisym.
        - apply (pre_fork _ _ false u v); [rewrite <- Px, Ea; apply pre_app_r|cbn [negb]; rewrite <- Py, Eb; apply pre_app_r].
        - apply (pre_fork _ _ c a b); [rewrite <- Ea, Px; apply pre_app_r|rewrite <- Eb, Py; apply pre_app_r]. }
      destruct Dx as [Dx|Dx], Dy as [Dy|Dy].
      * right. left. apply (IHl _ Hl); auto. intros A. apply NF. intros z Lz Pz. apply (den_inactive W _ _ _ _ _ _ _ _ H). auto.
      * left. split; auto. apply (KEY false); [exact (den_pre W _ _ _ (proj1 Hl) Dx)|exact (den_pre W _ _ _ (proj1 Hr) Dy)].
      * left. split; auto. apply (KEY true); [exact (den_pre W _ _ _ (proj1 Hr) Dx)|exact (den_pre W _ _ _ (proj1 Hl) Dy)].
      * right. right. apply (IHr _ Hr); auto. intros A. apply NF. intros z Lz Pz. apply (den_inactive W _ _ _ _ _ _ _ _ H). auto.
Qed.

(* ---- del ---- *)
Lemma net_bounds q p : wf_prefix W q -> wf_prefix W p -> (forall a, in_prefix W p a -> in_prefix W q a) ->
  net W q <= net W p /\ net W p + size W p <= net W q + size W q.
Proof.
  intros Hq Hp I. pose proof (I _ (in_net W HW p)) as A. pose proof (I _ (in_last W HW p)) as B. pose proof (size_pos W p).
  apply (in_prefix_bounds W) in A. apply (in_prefix_bounds W) in B. unfold size in *. lia.
Qed.
(* the parts of a prefix before and after a smaller one *)
Lemma edge_not_centred q r : wf_prefix W q -> net W q <= rfirst r -> rfirst r <= rlast r -> rlast r < net W q + size W q ->
  (rfirst r = net W q /\ rlast r + 1 < net W q + size W q) \/ (rlast r + 1 = net W q + size W q /\ net W q < rfirst r) -> ~ centred W r.
Proof.
  intros [_ Lq] A B C D (k & b & x & X0 & X1 & K0 & K1 & E1 & E2).
  unfold net, size in *. set (m := paddr q / 2 ^ (W - plen q)) in *. set (S := 2 ^ (W - plen q)) in *.
  assert (P2 : forall i j, j <= i -> exists e, 2 ^ i = e * 2 ^ j).
  { intros i j L. exists (2 ^ (i - j)). rewrite <- N.pow_add_r. f_equal. lia. }
  assert (XK : x < 2 ^ k) by (assert (2 ^ (k - 1) <= 2 ^ k) by (apply N.pow_le_mono_r; lia); lia).
  assert (MUL : forall u v z S0 : N, 0 < S0 -> u * S0 = v * S0 + z -> z < S0 -> z = 0).
  { intros u v z S0 P E L. rewrite <- (N.mod_small z S0 L). rewrite <- (N.mod_add z v S0) by lia. replace (z + v * S0) with (u * S0) by lia. apply N.mod_mul. lia. }
  assert (SP : 0 < S) by (unfold S; apply N.neq_0_lt_0, N.pow_nonzero; lia). assert (KP : 0 < 2 ^ k) by (apply N.neq_0_lt_0, N.pow_nonzero; lia).
  destruct (N.le_gt_cases k (W - plen q)) as [L|L].
  - destruct (P2 (W - plen q) k L) as [e Ee]. fold S in Ee.
    destruct D as [[D _]|[D _]].
    + assert (x = 0); [|lia]. apply (MUL (m * e) b x (2 ^ k)); auto. rewrite <- N.mul_assoc, <- Ee. lia.
    + assert (x = 0); [|lia]. apply (MUL (b + 1) ((m + 1) * e) x (2 ^ k)); auto. rewrite <- (N.mul_assoc (m + 1)), <- Ee. lia.
  - destruct (P2 k (W - plen q) ltac:(lia)) as [e Ee]. fold S in Ee. rewrite Ee in *.
    assert (MID : forall u v, v * S < u * S -> u * S < v * S + S -> False).
    { intros u v G1 G2. apply N.mul_lt_mono_pos_r in G1; [|exact SP]. replace (v * S + S) with ((v + 1) * S) in G2 by lia. apply N.mul_lt_mono_pos_r in G2; [|exact SP]. lia. }
    destruct D as [[D D']|[D D']].
    + assert (EX : x = (m - b * e) * S) by (rewrite N.mul_sub_distr_r, <- N.mul_assoc; lia).
      assert (ET : rlast r + 1 = ((b + 1) * e - (m - b * e)) * S) by (rewrite N.mul_sub_distr_r, <- EX, <- N.mul_assoc; lia).
      apply (MID ((b + 1) * e - (m - b * e)) m); lia.
    + assert (EX : x = ((b + 1) * e - (m + 1)) * S) by (rewrite N.mul_sub_distr_r, <- N.mul_assoc; lia).
      assert (ET : rfirst r = (b * e + ((b + 1) * e - (m + 1))) * S) by (rewrite N.mul_add_distr_r, <- EX, <- N.mul_assoc; lia).
      apply (MID (b * e + ((b + 1) * e - (m + 1))) m); lia.
Qed.

Lemma part_ok q a b : wf_prefix W q -> net W q <= a -> a <= b -> b < net W q + size W q -> ~ centred W (mkRange a b) ->
  exists t, setNodeFromRange W peq (mkRange a b) = Ok t /\ swf (key q) t /\ Forall (SetSpec.canonical W) (stored t) /\ (forall x, length x = WN -> den t x <-> within a b x).
Proof.
  intros Hq A B C NC. pose proof (last_bound W q Hq) as LB. unfold setNodeFromRange.
  destruct (from_range_ok W HW peq peq_sound (S (S WN)) a b B ltac:(lia) ltac:(lia)) as (t & E & S' & X & _).
  { intros q' ra rb _. lia. }
  exists t. split; [exact E|]. rewrite (twisted_centred W HW (mkRange a b)) in X by (split; cbn; lia). destruct (X NC) as [X1 X2].
  split; [|split; assumption]. apply S'; apply (in_prefix_pre W); auto; try lia; apply (in_prefix_bounds W); unfold size in *; lia.
Qed.
Lemma pre_within p x : wf_prefix W p -> length x = WN -> pre (key p) x <-> within (net W p) (net W p + size W p - 1) x.
Proof.
  intros Hp Lx. destruct (full_of W HW x Lx) as (a & La & <-). rewrite <- (in_prefix_pre W) by auto. rewrite (in_prefix_bounds W).
  unfold within. rewrite (val_full W) by auto. pose proof (size_pos W p). unfold size in *. lia.
Qed.
Lemma split_ok q p c x : wf_prefix W q -> wf_prefix W p -> key p = key q ++ c :: x ->
  exists u, (match range_minus W (prefix_range W q) (prefix_range W p) with
     | [] => Panic
     | [r0] => bind (setNodeFromRange W peq r0) (fun s => Ok (s, @None terr))
     | r0 :: r1 :: _ => bind (setNodeFromRange W peq r0) (fun a => bind (setNodeFromRange W peq r1) (fun b => bind (Union W peq a b) (fun s => Ok (s, None))))
     end) = Ok (u, None) /\ swf (key q) u /\ Forall (SetSpec.canonical W) (stored u) /\ (forall y, length y = WN -> den u y <-> pre (key q) y /\ ~ pre (key p) y).
Proof.
  intros Hq Hp EK.
  assert (SUB : forall a, in_prefix W p a -> in_prefix W q a).
  { intros a I. pose proof (in_lt W HW p a Hp I) as La. apply (in_prefix_pre W) in I; auto. apply (in_prefix_pre W); auto. rewrite EK in I. eapply pre_app. exact I. }
  destruct (net_bounds q p Hq Hp SUB) as [B1 B2]. pose proof (last_bound W q Hq) as LB. pose proof (last_bound W p Hp) as LBp.
  assert (SZ : size W p < size W q).
  { unfold size. apply N.pow_lt_mono_r; [lia|]. assert (LK : nlen (key p) = nlen (key q) + 1 + nlen x) by (rewrite EK, nlen_app, nlen_cons; lia). rewrite !nlen_key in LK. destruct Hp as [_ Lp]. lia. }
  pose proof (size_pos W p) as SP.
  assert (DEN : forall y, length y = WN -> pre (key q) y /\ ~ pre (key p) y <-> within (net W q) (net W q + size W q - 1) y /\ ~ within (net W p) (net W p + size W p - 1) y).
  { intros y Ly. rewrite (pre_within q y Hq Ly), (pre_within p y Hp Ly). reflexivity. }
  rewrite (prefix_range_eq W HW q Hq), (prefix_range_eq W HW p Hp). unfold range_minus, addr_lt, range_prev, range_next, minAddress, maxAddress, addr_lt. cbn [rfirst rlast].
  assert (WS : 0 < net W p -> wsub W (net W p) 1 = net W p - 1).
  { intros G. unfold wsub. rewrite (N.mod_small 1) by lia. replace (net W p + (2 ^ W - 1)) with (net W p - 1 + 1 * 2 ^ W) by lia. rewrite N.mod_add, N.mod_small by lia. reflexivity. }
  assert (WA : net W p + size W p < 2 ^ W -> wadd W (net W p + size W p - 1) 1 = net W p + size W p) by (intros G; unfold wadd; rewrite N.mod_small; lia).
  assert (LEFT : net W q < net W p -> exists t, setNodeFromRange W peq (mkRange (net W q) (net W p - 1)) = Ok t /\ swf (key q) t /\ Forall (SetSpec.canonical W) (stored t) /\ (forall x, length x = WN -> den t x <-> within (net W q) (net W p - 1) x)).
  { intros G. apply part_ok; auto; try lia. apply (edge_not_centred q); cbn [rfirst rlast]; auto; lia. }
  assert (RIGHT : net W p + size W p < net W q + size W q -> exists t, setNodeFromRange W peq (mkRange (net W p + size W p) (net W q + size W q - 1)) = Ok t /\ swf (key q) t /\ Forall (SetSpec.canonical W) (stored t) /\
     (forall x, length x = WN -> den t x <-> within (net W p + size W p) (net W q + size W q - 1) x)).
  { intros G. apply part_ok; auto; try lia. apply (edge_not_centred q); cbn [rfirst rlast]; auto; lia. }
  destruct (N.ltb_spec (net W q) (net W p)) as [G1|G1]; destruct (N.ltb_spec (net W p + size W p - 1) (net W q + size W q - 1)) as [G2|G2]; cbn [app].
  - destruct (LEFT G1) as (t1 & E1 & S1 & C1 & D1). destruct (RIGHT ltac:(lia)) as (t2 & E2 & S2 & C2 & D2).
    rewrite WS, WA by lia. replace (if net W p - 1 <? net W q + size W q - 1 then _ else _) with (net W p - 1) by (destruct (N.ltb_spec (net W p - 1) (net W q + size W q - 1)); lia).
    replace (if net W q <? net W p + size W p then _ else _) with (net W p + size W p) by (destruct (N.ltb_spec (net W q) (net W p + size W p)); lia).
    rewrite E1, E2. cbn [bind].
    assert (UO : union_post W (key q) t1 t2 (Union W peq t1 t2)).
    { apply (union_ok W HW peq peq_sound); auto. pose proof (room_max W HW peq peq_sound t1). pose proof (room_max W HW peq peq_sound t2). unfold fuelW. lia. }
    destruct UO as (u & EU & SU & _ & DU). rewrite EU. exists u. split; [reflexivity|]. split; [exact SU|]. split; [exact (clean_Union W HW peq peq_sound _ _ _ _ S1 S2 C1 C2 EU)|].
    intros y Ly. rewrite (DU y Ly), (D1 y Ly), (D2 y Ly), (DEN y Ly). unfold within. lia.
  - destruct (LEFT G1) as (t1 & E1 & S1 & C1 & D1).
    rewrite WS by lia. replace (if net W p - 1 <? net W q + size W q - 1 then _ else _) with (net W p - 1) by (destruct (N.ltb_spec (net W p - 1) (net W q + size W q - 1)); lia).
    rewrite E1. cbn [bind]. exists t1. split; [reflexivity|]. split; [exact S1|]. split; [exact C1|]. intros y Ly. rewrite (D1 y Ly), (DEN y Ly). unfold within. lia.
  - destruct (RIGHT ltac:(lia)) as (t2 & E2 & S2 & C2 & D2).
    rewrite WA by lia. replace (if net W q <? net W p + size W p then _ else _) with (net W p + size W p) by (destruct (N.ltb_spec (net W q) (net W p + size W p)); lia).
    rewrite E2. cbn [bind]. exists t2. split; [reflexivity|]. split; [exact S2|]. split; [exact C2|]. intros y Ly. rewrite (D2 y Ly), (DEN y Ly). unfold within. lia.
  - lia.
Qed.

Lemma diff_below p c t fuel : wf_prefix W p -> (0 < fuel)%nat -> swf (key p ++ [c]) t -> difference W peq fuel t (leaf p) = Ok Nil.
Proof.
  intros Hp F H. destruct fuel as [|fuel]; [lia|]. destruct t as [|q d s h a l r]; [reflexivity|]. cbn [difference setNodeFromPrefix].
  pose proof (swf_prefix W _ _ _ _ _ _ _ _ H) as Pq. destruct (swf_pre W _ _ _ _ _ _ _ _ H) as [u Q]. rewrite <- snoc_cons in Q.
  destruct (Key.compare_spec W HW q p Pq Hp) as [E|c' x E|c' x E|x c' ra rb rev E1 E2 Er]; cbn beta iota zeta; try reflexivity; exfalso.
  - rewrite E in Q. apply (f_equal (@length bool)) in Q. rewrite app_length in Q. cbn in Q. lia.
  - rewrite E in Q. apply (f_equal (@length bool)) in Q. rewrite !app_length in Q. cbn in Q. lia.
  - rewrite E2, <- app_assoc in Q. rewrite E1 in Q. apply app_inv_head in Q. injection Q. destruct c'; discriminate.
Qed.
Lemma Union_nil_l t : Union W peq Nil t = Ok t.
Proof. unfold Union, fuelW. destruct (2 * N.to_nat W + 6)%nat as [|f] eqn:EF; [lia|]. cbn [union]. destruct (peq Nil t) eqn:PE; [apply peq_sound in PE; subst t|]; [reflexivity|]. destruct t; reflexivity. Qed.
Lemma Union_nil_r t : Union W peq t Nil = Ok t.
Proof. unfold Union, fuelW. destruct (2 * N.to_nat W + 6)%nat as [|f] eqn:EF; [lia|]. cbn [union]. destruct (peq t Nil); [reflexivity|]. destruct t; reflexivity. Qed.

(* the difference of an active node and a smaller prefix: its prefixes have no host bits *)
Lemma diff_split_clean q p c x fuel u : wf_prefix W q -> wf_prefix W p -> key p = key q ++ c :: x ->
  (room (leaf q) + room (leaf p) < fuel)%nat -> difference W peq fuel (leaf q) (leaf p) = Ok u -> Forall (SetSpec.canonical W) (stored u).
Proof.
  intros Hq Hp EK F. destruct fuel as [|fuel]; [lia|]. cbn [difference setNodeFromPrefix].
  pose proof (Key.compare_spec W HW q p Hq Hp) as C.
  assert (Lm : plen q < W). { destruct Hp as [_ Po]. rewrite <- (nlen_key W p), EK, nlen_app, nlen_cons, nlen_key in Po. lia. }
  destruct C as [E|c' x' E|c' x' E|y c' ra rb rev E1 E2 Er]; cbn beta iota zeta.
  - exfalso. rewrite E in EK. apply (f_equal (@length bool)) in EK. rewrite app_length in EK. cbn in EK. lia.
  - rewrite EK in E. apply app_inv_head in E. injection E as <- <-. cbn [negb]. rewrite (halves_eq W q Hq Lm). change (Node p None 1 1 true Nil Nil) with (leaf p).
    pose proof (swf_half W c q Hq Lm) as HC. pose proof (swf_half W (negb c) q Hq Lm) as HN.
    assert (PO : swf [] (leaf p)) by (apply swf_leaf; [exact Hp|apply pre_nil]).
    assert (RM : (room (leaf (half W c q)) < room (leaf q))%nat) by (cbn; lia).
    destruct (difference_ok W HW peq peq_sound fuel (key q ++ [c]) (leaf (half W c q)) (leaf p) ltac:(lia) HC PO) as (v & EV & SV & _). assert (FF : (room (leaf (half W c q)) + room (leaf p) < fuel)%nat) by lia.
    pose proof (clean_difference W HW peq peq_sound fuel _ _ _ _ FF HC PO (clean_half W HW c q Hq Lm) EV) as CV.
    assert (EW : (if c then half W false q else half W true q) = half W (negb c) q) by (destruct c; reflexivity).
    replace (difference W peq fuel (if c then leaf (half W true q) else leaf (half W false q)) (leaf p)) with (difference W peq fuel (leaf (half W c q)) (leaf p)) by (destruct c; reflexivity).
    rewrite EV. cbn [bind]. replace (if c then leaf (half W false q) else leaf (half W true q)) with (leaf (half W (negb c) q)) by (destruct c; reflexivity).
    intros EU. eapply (clean_Union W HW peq peq_sound (key q)); [| | | |exact EU].
    + exact (swf_snoc W _ _ _ HN).
    + exact (swf_snoc W _ _ _ SV).
    + exact (clean_half W HW (negb c) q Hq Lm).
    + exact CV.
  - exfalso. rewrite E in EK. apply (f_equal (@length bool)) in EK. rewrite !app_length in EK. cbn in EK. lia.
  - exfalso. rewrite E1 in EK. rewrite E2, <- app_assoc in EK. apply app_inv_head in EK. injection EK. destruct c'; discriminate.
Qed.

Lemma sdel_diff p : wf_prefix W p -> forall t k fuel, swf k t -> (room t + room (leaf p) < fuel)%nat ->
  exists u e, sdel W peq t p = Ok (u, e) /\ difference W peq fuel t (leaf p) = Ok u /\ (e <> None -> u = t).
Proof.
  intros Hp. induction t as [|q d s h a l IHl r IHr]; intros k fuel H F.
  { exists Nil, None. split; [reflexivity|]. split; [destruct fuel; [lia|reflexivity]|tauto]. }
  pose proof (swf_prefix W _ _ _ _ _ _ _ _ H) as Pq. pose proof (swf_l W _ _ _ _ _ _ _ _ H) as Hl. pose proof (swf_r W _ _ _ _ _ _ _ _ H) as Hr.
  assert (PO : swf [] (leaf p)) by (apply swf_leaf; [exact Hp|apply pre_nil]).
  pose proof (room_kid W HW peq peq_sound _ _ _ _ _ _ _ _ false H) as R1. pose proof (room_kid W HW peq peq_sound _ _ _ _ _ _ _ _ true H) as R2. cbn [kid] in R1, R2.
  destruct fuel as [|fuel]; [lia|]. pose proof (Key.compare_spec W HW q p Pq Hp) as C. cbn [sdel difference setNodeFromPrefix].
  assert (FP : (0 < fuel)%nat) by lia.
  destruct C as [E|c x E|c x E|x c ra rb rev E1 E2 Er]; cbn beta iota zeta; change (Node p None 1 1 true Nil Nil) with (leaf p).
  - exists Nil, None. split; [reflexivity|]. split; [|tauto]. destruct a; cbn [negb]; [reflexivity|].
    destruct (swf_inactive W _ _ _ _ _ _ _ H) as (_ & Nl & Nr & _). rewrite E in Hl, Hr.
    rewrite (diff_below p false l fuel Hp FP Hl), (diff_below p true r fuel Hp FP Hr). cbn [bind].
    destruct (peq Nil l) eqn:PE; [apply peq_sound in PE; congruence|]. cbn [andb]. apply Union_nil_l.
  - destruct a; cbn [negb].
    + pose proof (swf_active W _ _ _ _ _ _ _ H) as X. injection X as -> -> -> -> ->.
      destruct (split_ok q p c x Pq Hp E) as (u & EU & SU & CU & DU). rewrite EU. exists u, None. split; [reflexivity|]. split; [|tauto].
      assert (QO : swf (key q) (leaf q)) by (apply swf_leaf; [exact Pq|apply pre_refl]).
      destruct (difference_ok W HW peq peq_sound (S fuel) (key q) (leaf q) (leaf p) F QO PO) as (v & EV & SV & DV).
      pose proof (diff_split_clean q p c x (S fuel) v Pq Hp E F EV) as CV.
      assert (EUV : u = v).
      { rewrite <- (norm_canonical W _ u SU CU), <- (norm_canonical W _ v SV CV). apply (canonicity W HW u v _ _ SU SV).
        intros y Ly. rewrite (DU y Ly), (DV y Ly), !den_leaf. reflexivity. }
      subst v. cbn [difference setNodeFromPrefix] in EV. pose proof (Key.compare_spec W HW q p Pq Hp) as C'. 
      destruct C' as [E'|c' x' E'|c' x' E'|x' c' ra rb rev E1 E2 Er]; cbn beta iota zeta in EV.
      * exfalso. rewrite E' in E. apply (f_equal (@length bool)) in E. rewrite app_length in E. cbn in E. lia.
      * rewrite E in E'. apply app_inv_head in E'. injection E' as <- <-. cbn [negb] in EV. exact EV.
      * exfalso. rewrite E' in E. apply (f_equal (@length bool)) in E. rewrite !app_length in E. cbn in E. lia.
      * exfalso. rewrite E1 in E. rewrite E2, <- app_assoc in E. apply app_inv_head in E. injection E. destruct c'; discriminate.
    + destruct (swf_inactive W _ _ _ _ _ _ _ H) as (EN & Nl & Nr & NM & MG & LQ).
      assert (IK : exists v e, sdel W peq (kid c l r) p = Ok (v, e) /\ difference W peq fuel (kid c l r) (leaf p) = Ok v /\ (e <> None -> v = kid c l r)).
      { destruct c; cbn [kid]; [eapply IHr; [exact Hr|lia]|eapply IHl; [exact Hl|lia]]. }
      destruct IK as (v & e & ES & ED & EE).
      assert (OA : difference W peq fuel (kid (negb c) l r) (leaf p) = Ok (kid (negb c) l r)).
      { apply (diff_absorb W HW peq peq_sound fuel (key q ++ [negb c])); [destruct c; cbn [kid negb]; lia|exact (swf_kid W _ _ _ _ _ _ _ _ (negb c) H)|exact PO|].
        intros y Ly D1 D2. apply den_leaf in D2. pose proof (den_pre W _ _ _ (proj1 (swf_kid W _ _ _ _ _ _ _ _ (negb c) H)) D1) as P1.
        rewrite E in D2. destruct D2 as [z D2]. rewrite snoc_cons, <- app_assoc in D2.
        assert (P2 : pre (key q ++ [c]) y) by (exists (x ++ z); exact D2). pose proof (pre_snoc_inj _ _ _ _ P1 P2). destruct c; discriminate. }
      assert (DD : @bind snode snode (difference W peq fuel l (leaf p)) (fun lft => @bind snode snode (difference W peq fuel r (leaf p)) (fun rgt => if peq lft l && peq rgt r then Ok (Node q d s h false l r : snode) else Union W peq lft rgt)) =
        if peq (setl c v l) l && peq (setr c v r) r then Ok (Node q d s h false l r : snode) else Union W peq (setl c v l) (setr c v r)).
      { destruct c; cbn [kid negb setl setr] in *; rewrite ED, OA; reflexivity. }
      setoid_rewrite DD. clear DD. rewrite ES. cbn [bind].
      destruct e as [e|].
      { exists (Node q d s h false l r), (Some e). split; [reflexivity|]. split; [|reflexivity]. rewrite (EE ltac:(discriminate)).
        replace (setl c (kid c l r) l) with l by (destruct c; reflexivity). replace (setr c (kid c l r) r) with r by (destruct c; reflexivity).
        rewrite (union_children W HW peq peq_sound k q d s h l r H). destruct (peq l l && peq r r); reflexivity. }
      clear EE. destruct v as [|vp vd vs vh va vl vr].
      { cbn [is_nil andb]. eexists _, None. split; [reflexivity|]. split; [|tauto].
        pose proof (kid_nonnil W k q d s h l r c H) as NK.
        destruct c; cbn [kid negb setl setr] in *.
        - destruct (peq Nil r) eqn:PE; [apply peq_sound in PE; congruence|]. rewrite andb_false_r. apply Union_nil_r.
        - destruct (peq Nil l) eqn:PE; [apply peq_sound in PE; congruence|]. cbn [andb]. apply Union_nil_l. }
      cbn [is_nil andb]. set (v := Node vp vd vs vh va vl vr) in *.
      assert (d = None) as -> by (injection EN; auto).
      destruct (difference_ok W HW peq peq_sound fuel (key q ++ [c]) (kid c l r) (leaf p)) as (v' & EV & SV & DV); [destruct c; cbn [kid]; lia|exact (swf_kid W _ _ _ _ _ _ _ _ c H)|exact PO|].
      rewrite ED in EV. injection EV as <-.
      assert (SN : swf k (mk q None false (setl c v l) (setr c v r))).
      { split.
        - apply wf_mk; [exact Pq|exact (swf_pre W _ _ _ _ _ _ _ _ H)|intros _; destruct c; cbn [setl setr]; split; auto; discriminate|destruct c; cbn [setl]; [apply Hl|apply SV]|destruct c; cbn [setr]; [apply SV|apply Hr]].
        - cbn [mk sok]. split; [reflexivity|]. split; [split; [exact NM|]|split; [destruct c; cbn [setl]; [apply Hl|apply SV]|destruct c; cbn [setr]; [apply SV|apply Hr]]].
          assert (NF : va && (plen vp =? plen q + 1) = false).
          { destruct va; [|reflexivity]. cbn [andb]. apply N.eqb_neq. intros LE.
            assert (KV : key vp = key q ++ [c]).
            { destruct (swf_pre W _ _ _ _ _ _ _ _ SV) as [u KU]. assert (LU : nlen (key vp) = nlen (key q) + 1 + nlen u) by (rewrite KU, !nlen_app; cbn; lia).
              rewrite !nlen_key, LE in LU. assert (u = []) as -> by (destruct u; [reflexivity|rewrite nlen_cons in LU; lia]). rewrite app_nil_r in KU. exact KU. }
            assert (PF : pre (key p) (full (paddr p))) by (apply (in_prefix_pre W); [exact Hp|exact (proj1 Hp)|reflexivity]).
            assert (D : den v (full (paddr p))).
            { apply (den_active W _ _ _ _ _ _ _ _ SV). rewrite KV. eapply pre_trans; [|exact PF]. rewrite E. apply pre_snoc_cons. }
            apply DV in D; [|apply full_length]. destruct D as [_ D]. apply D. apply den_leaf. exact PF. }
          unfold mergeable. destruct c; cbn [setl setr active prefix_of]; unfold v; cbn [active prefix_of].
          + destruct (active l); [|reflexivity]. cbn [andb]. destruct va; [|reflexivity]. cbn [andb] in *. rewrite NF, andb_false_r. reflexivity.
          + destruct va; [|reflexivity]. cbn [andb] in *. rewrite NF, andb_false_r. reflexivity. }
      eexists _, None. split; [reflexivity|]. split; [|tauto].
      rewrite (union_children W HW peq peq_sound k _ _ _ _ _ _ SN).
      destruct (peq (setl c v l) l) eqn:PL; [|reflexivity]. destruct (peq (setr c v r) r) eqn:PR; [|reflexivity]. cbn [andb].
      apply peq_sound in PL, PR. rewrite PL, PR. rewrite EN. reflexivity.
  - exists Nil, None. split; [reflexivity|]. split; [reflexivity|tauto].
  - exists (Node q d s h a l r), (Some ErrKeyNotFound). repeat split; reflexivity.
Qed.
Lemma snode_remove_diff t p k : wf_prefix W p -> swf k t -> snode_remove W peq t p = Difference W peq t (leaf p).
Proof.
  intros Hp H. unfold snode_remove, Difference. destruct (sdel_diff p Hp t k (fuelW W) H) as (u & e & -> & -> & _); [|reflexivity].
  pose proof (room_max W HW peq peq_sound t). pose proof (room_max W HW peq peq_sound (leaf p)). unfold fuelW. lia.
Qed.
End SetDel.
