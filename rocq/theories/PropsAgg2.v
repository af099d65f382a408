(* PropsAgg2.v - what Aggregate computes exactly (C16), and that on tables with one
   value it gives the unique smallest table (C17). *)
From Verif Require Export PropsAgg AggFun.
From Coq Require Import Arith Sorted Permutation ZifyBool ZifyNat ZifyN.

Lemma bits_value_val k : bits_value k = val k.
Proof.
  unfold bits_value. assert (G : forall l n, fold_left (fun n (b : bool) => 2 * n + (if b then 1 else 0)) l n = n * 2 ^ nlen l + val l).
  { induction l as [|b l IH]; intros n; cbn [fold_left val]; [change (2 ^ nlen (@nil bool)) with 1; lia|].
    rewrite IH, nlen_cons, N.pow_add_r. change (2 ^ 1) with 2. destruct b; lia. }
  rewrite G. lia.
Qed.
Lemma key_prefix_of_bits W k : nlen k <= W -> wf_prefix W (prefix_of_bits W k) /\ key W (prefix_of_bits W k) = k.
Proof.
  intros L. unfold prefix_of_bits. rewrite bits_value_val. fold (nlen k). pose proof (val_lt k) as V.
  assert (P : 2 ^ W = 2 ^ nlen k * 2 ^ (W - nlen k)) by (rewrite <- N.pow_add_r; f_equal; lia).
  assert (H : wf_prefix W (mkPrefix (val k * 2 ^ (W - nlen k)) (nlen k))).
  { split; cbn [paddr plen]; [|auto]. rewrite P. apply N.mul_lt_mono_pos_r; auto. apply N.neq_0_lt_0, N.pow_nonzero. discriminate. }
  split; auto. apply val_inj.
  - pose proof (nlen_key W (mkPrefix (val k * 2 ^ (W - nlen k)) (nlen k))) as E. cbn [plen] in E. unfold nlen in *. lia.
  - rewrite val_key by auto. cbn [paddr plen]. apply N.div_mul. apply N.pow_nonzero. discriminate.
Qed.

Section Props.
Variable W : N.
Hypothesis IPW : ip_width W.
Context {T : Type}.
Variable zeroT : T.
Variable box : T -> option T.
Hypothesis Hbox : forall v, unbox zeroT (box v) = v.
Variable goeq : T -> T -> res bool.
Notation key := (key W).
Notation wf := (wf W).
Notation fk := (fk W).
Notation unbox := (unbox zeroT).
Notation isbox := (isbox box).
Notation Get := (Get W zeroT).
Notation reachable := (reachable W zeroT box goeq).
Notation decides := (decides box).
Notation fg := (fg zeroT).
Notation value_at := (value_at W zeroT).
Let HW : 0 < W /\ W < 2 ^ 15 := ip_HW W IPW.

(* the entries of a table as a map on bit strings *)
Definition entry_at (t : tableX T) (k : list bool) : option T :=
  let '(v, found) := Get t (Some (prefix_of_bits W k)) in if found then Some v else None.

Lemma entry_vk t k : wf [] (tx_trie t) -> nlen k <= W -> entry_at t k = option_map unbox (vk W k (tx_trie t)).
Proof.
  intros Hw L. unfold entry_at. destruct (key_prefix_of_bits W k L) as [Wk Kk].
  rewrite (Get_fk W HW) by auto. rewrite Kk. unfold vk.
  destruct (fk k (tx_trie t)) as [[p d]|]; reflexivity.
Qed.

Section One.
Variable peq : trie T -> trie T -> bool.
Hypothesis Hs : forall a b, peq a b = true -> a = b.
Variables (t t' : tableX T) (g : T -> T -> bool).
Hypothesis Ht : reachable t.
Hypothesis Hd : decides t g.
Hypothesis Hg : equivalence g.
Hypothesis HA : tbl_Aggregate peq t = Ok t'.

(* Aggregate computes [aggregated] of the entries: the same prefixes, with values
   that the comparator cannot tell apart. *)
Theorem C16_aggregate_function : forall k, N.of_nat (length k) <= W ->
  match entry_at t' k, aggregated g (N.to_nat W) (entry_at t) None k with
  | Some v', Some v => g v' v = true
  | None, None => True
  | _, _ => False
  end.
Proof.
  intros k L. fold (nlen k) in L.
  destruct (tinv W IPW zeroT box goeq t Ht) as (Hw & Hb).
  destruct (tinv' W IPW zeroT box goeq peq Hs t t' Ht HA) as (Hw' & Hb').
  pose proof (agg_trie peq t t' HA) as A. unfold Aggregate in A.
  destruct Hg as (G1 & G2 & G3).
  assert (R1 : forall x, fg g x x = true) by (intros; apply G1).
  assert (R2 : forall x y, fg g x y = true -> fg g y x = true) by (intros x y; apply G2).
  assert (R3 : forall x y z, fg g x y = true -> fg g y z = true -> fg g x z = true) by (intros x y z; apply G3).
  pose proof (aggregate_fun W peq Hs (ceq (tx_eq t)) isbox (fg g) (agg_eq zeroT box Hbox t g Hd) R1 R2 R3
     (tx_trie t) (N.to_nat W) [] None (tx_trie t') Hw Hb I) as X.
  specialize (X ltac:(unfold nlen; cbn; lia) A k). cbn [app] in X.
  pose proof (aggregated_map unbox g (N.to_nat W) (fun x => vk W x (tx_trie t)) None k) as Y. cbn [option_map] in Y.
  rewrite (aggregated_ext g (N.to_nat W) (entry_at t) (fun x => option_map unbox (vk W x (tx_trie t)))).
  2:{ intros x Lx. apply entry_vk; auto. unfold nlen. lia. }
  rewrite <- Y, entry_vk by auto. unfold PropsTable.fg in X.
  change (fun x y : option T => g (unbox x) (unbox y)) with (fun x y : option T => g (unbox x) (unbox y)) in X.
  destruct (vk W k (tx_trie t')) as [v'|];
    destruct (aggregated (fun x y : option T => g (unbox x) (unbox y)) (N.to_nat W) (fun x => vk W x (tx_trie t)) None k) as [v|];
    cbn in X |- *; auto.
Qed.

(* -------- tables with one value -------- *)
Hypothesis Hone : forall p v q w, wf_prefix W p -> wf_prefix W q ->
  Get t (Some p) = (v, true) -> Get t (Some q) = (w, true) -> g v w = true.

Lemma one_uniform : uniform g (fun k => if N.of_nat (length k) <=? W then entry_at t k else None).
Proof.
  intros x y v w. destruct (N.leb_spec (N.of_nat (length x)) W) as [Lx|]; [|discriminate].
  destruct (N.leb_spec (N.of_nat (length y)) W) as [Ly|]; [|discriminate]. unfold entry_at.
  destruct (key_prefix_of_bits W x Lx) as [Wx _]. destruct (key_prefix_of_bits W y Ly) as [Wy _].
  destruct (Get t (Some (prefix_of_bits W x))) as [v0 b0] eqn:E0. destruct (Get t (Some (prefix_of_bits W y))) as [w0 b1] eqn:E1.
  destruct b0, b1; try discriminate. intros [= <-] [= <-]. eapply Hone; [exact Wx|exact Wy|exact E0|exact E1].
Qed.

Lemma cov_value a : a < 2 ^ W ->
  cov (fun k => if N.of_nat (length k) <=? W then entry_at t k else None) (full W a) <-> value_at t a <> None.
Proof.
  intros Ha. destruct (tinv W IPW zeroT box goeq t Ht) as (Hw & _).
  rewrite (value_lastm W IPW zeroT box Hbox goeq) by auto. split.
  - intros (x & P & N). destruct (N.leb_spec (N.of_nat (length x)) W) as [Lx|]; [|congruence].
    rewrite entry_vk in N by auto. unfold vk in N. destruct (fk x (tx_trie t)) as [e|] eqn:E; [|cbn in N; congruence].
    apply (fk_In W) in E. destruct E as [Ie Ke].
    destruct (lastm W (entries (tx_trie t)) (full W a)) as [e'|] eqn:El; [cbn; discriminate|].
    exfalso. rewrite (lastm_none W) in El. apply (El e Ie). rewrite Ke. exact P.
  - intros N. destruct (lastm W (entries (tx_trie t)) (full W a)) as [e|] eqn:El; [|cbn in N; congruence].
    apply lastm_In in El. destruct El as [Ie Pe]. exists (ekey W e). split; auto.
    pose proof (ewf W _ _ Hw Ie) as We. assert (Le : nlen (ekey W e) <= W) by (unfold ekey; rewrite (nlen_key W); apply We).
    fold (nlen (ekey W e)). assert (nlen (ekey W e) <=? W = true) as -> by (apply N.leb_le; exact Le).
    rewrite entry_vk by auto. unfold vk. rewrite (In_fk W _ _ _ Hw Ie). cbn. discriminate.
Qed.

(* the prefix p lies wholly in the address space the table covers *)
Definition covered (p : prefix) : Prop := forall a, a < 2 ^ W -> in_prefix W p a -> value_at t a <> None.

Lemma fullat_covered p : wf_prefix W p ->
  fullat (N.to_nat W) (fun k => if N.of_nat (length k) <=? W then entry_at t k else None) (key p) <-> covered p.
Proof.
  intros Hp. split.
  - intros F a Ha Hi. apply cov_value; auto. apply F; [apply full_length|]. apply in_prefix_pre; auto.
  - intros C h L P. destruct (full_onto W h) as (a & Ha & <-); [unfold nlen; lia|]. apply cov_value; auto.
    apply C; auto. apply in_prefix_pre; auto.
Qed.

(* If all values are the same, the aggregated table has exactly the maximal
   prefixes of the covered address space. *)
Theorem C17_single_value_partial : forall p, wf_prefix W p ->
  (snd (Get t' (Some p)) = true <->
     covered p /\ (plen p = 0 \/ ~ covered (mkPrefix (paddr p) (plen p - 1)))).
Proof.
  intros p Hp. destruct (tinv' W IPW zeroT box goeq peq Hs t t' Ht HA) as (Hw' & _).
  assert (Lk : N.of_nat (length (key p)) <= W) by (fold (nlen (key p)); rewrite nlen_key; apply Hp).
  assert (E1 : snd (Get t' (Some p)) = true <-> entry_at t' (key p) <> None).
  { rewrite entry_vk by auto. rewrite (Get_fk W HW) by auto. unfold vk.
    destruct (fk (key p) (tx_trie t')) as [[q d]|]; cbn; split; congruence. }
  rewrite E1. clear E1. pose proof (C16_aggregate_function (key p) Lk) as F.
  rewrite (aggregated_ext g (N.to_nat W) (entry_at t) (fun k => if N.of_nat (length k) <=? W then entry_at t k else None)) in F.
  2:{ intros x Lx. assert (N.of_nat (length x) <=? W = true) as -> by (apply N.leb_le; lia). reflexivity. }
  pose proof (aggregated_single g (N.to_nat W) _ one_uniform (key p) ltac:(lia)) as S.
  rewrite fullat_covered in S by auto.
  assert (E2 : entry_at t' (key p) <> None <-> aggregated g (N.to_nat W) (fun k => if N.of_nat (length k) <=? W then entry_at t k else None) None (key p) <> None).
  { destruct (entry_at t' (key p)), (aggregated _ _ _ _ _); try tauto; split; congruence. }
  rewrite E2, S. clear E2 S F.
  assert (PK : forall k c, key p = k ++ [c] -> wf_prefix W (mkPrefix (paddr p) (plen p - 1)) /\ key (mkPrefix (paddr p) (plen p - 1)) = k /\ plen p <> 0).
  { intros k c E. pose proof (f_equal nlen E) as L. rewrite (nlen_key W), nlen_app in L. change (nlen [c]) with 1 in L.
    destruct Hp as [Ha Hl]. assert (Hm : wf_prefix W (mkPrefix (paddr p) (plen p - 1))) by (split; cbn; auto; lia).
    split; auto. split; [|lia].
    assert (P : pre (key (mkPrefix (paddr p) (plen p - 1))) (key p)) by (unfold Bits.key; cbn; apply top_pre; lia).
    pose proof (nlen_key W (mkPrefix (paddr p) (plen p - 1))) as Q. cbn [plen] in Q.
    apply pre_eq_length; [|unfold nlen in *; lia].
    eapply (pre_comparable _ _ (key p)); [exact P|rewrite E; apply pre_app_r|unfold nlen in *; lia]. }
  split; intros [C M]; (split; [exact C|]).
  - destruct (N.eq_dec (plen p) 0) as [Z|Z]; [auto|right].
    destruct (@exists_last _ (key p)) as (k & c & E). { intros E. apply (f_equal nlen) in E. rewrite (nlen_key W) in E. cbn in E. auto. }
    destruct (PK k c E) as (Hm & Km & _). rewrite <- fullat_covered by auto. rewrite Km. eauto.
  - intros k c E. destruct (PK k c E) as (Hm & Km & Z). destruct M as [M|M]; [contradiction|].
    rewrite <- Km, fullat_covered by auto. exact M.
Qed.

Lemma covered_comparable p q a : wf_prefix W p -> wf_prefix W q -> a < 2 ^ W -> in_prefix W p a -> in_prefix W q a ->
  plen p <= plen q -> covers W p q.
Proof.
  intros Hp Hq Ha Ip Iq L. apply covers_pre; auto. apply in_prefix_pre in Ip; auto. apply in_prefix_pre in Iq; auto.
  eapply pre_comparable; eauto. pose proof (nlen_key W p). pose proof (nlen_key W q). unfold nlen in *. lia.
Qed.
Lemma in_prefix_covers p q a : wf_prefix W p -> wf_prefix W q -> a < 2 ^ W -> covers W p q -> in_prefix W q a -> in_prefix W p a.
Proof.
  intros Hp Hq Ha C I. apply in_prefix_pre; auto. apply in_prefix_pre in I; auto. apply covers_pre in C; auto.
  eapply pre_trans; eauto.
Qed.
Lemma prefix_inhabited p : wf_prefix W p -> exists a, a < 2 ^ W /\ in_prefix W p a.
Proof. intros [Ha _]. exists (paddr p). split; auto. unfold in_prefix. reflexivity. Qed.

(* a result prefix that covers a covered prefix sharing an address with it *)
Lemma maximal_covers p q a : wf_prefix W p -> wf_prefix W q -> a < 2 ^ W -> in_prefix W p a -> in_prefix W q a ->
  snd (Get t' (Some p)) = true -> covered q -> covers W p q.
Proof.
  intros Hp Hq Ha Ip Iq G C. apply C17_single_value_partial in G; auto. destruct G as [_ M].
  destruct (N.le_gt_cases (plen p) (plen q)) as [L|L]; [eapply covered_comparable; eauto|].
  exfalso. destruct M as [M|M]; [lia|]. apply M.
  assert (Hm : wf_prefix W (mkPrefix (paddr p) (plen p - 1))) by (destruct Hp; split; cbn; auto; lia).
  assert (Pm : covers W (mkPrefix (paddr p) (plen p - 1)) p).
  { apply covers_pre; auto. unfold Bits.key. cbn. apply top_pre. lia. }
  assert (Cq : covers W q (mkPrefix (paddr p) (plen p - 1))).
  { eapply (covered_comparable q _ a); auto; [|cbn; lia]. eapply in_prefix_covers; [exact Hm|exact Hp|auto|exact Pm|auto]. }
  intros b Hb Ib. apply C; auto. eapply in_prefix_covers; [exact Hq|exact Hm|auto|exact Cq|auto].
Qed.

(* ... so no set of prefixes that covers the same addresses is smaller *)
Theorem C17_single_value_minimal_partial : forall (ps : list prefix) (L : list (N * N)),
  Forall (wf_prefix W) ps ->
  (forall a, a < 2 ^ W -> value_at t a <> None <-> exists p, In p ps /\ in_prefix W p a) ->
  NoDup L -> (forall k, In k L <-> exists p, wf_prefix W p /\ pkey W p = k /\ snd (Get t' (Some p)) = true) ->
  (length L <= length ps)%nat.
Proof.
  intros ps L Fw Hc ND HL. rewrite Forall_forall in Fw.
  assert (COV : forall p, In p ps -> covered p) by (intros p Ip a Ha Ia; apply Hc; eauto).
  assert (CH : forall k, In k L -> exists q, In q ps /\ exists p, wf_prefix W p /\ pkey W p = k /\ snd (Get t' (Some p)) = true /\ covers W p q).
  { intros k Ik. apply HL in Ik. destruct Ik as (p & Hp & Ek & G).
    destruct (prefix_inhabited p Hp) as (a & Ha & Ia).
    pose proof (proj1 (C17_single_value_partial p Hp) G) as [C _].
    destruct (proj1 (Hc a Ha) (C a Ha Ia)) as (q & Iq & Qa). exists q. split; auto. exists p. split; auto. split; auto. split; auto.
    eapply (maximal_covers p q a); auto. }
  assert (LE : forall M, NoDup M -> incl M L -> exists qs, incl qs ps /\ NoDup qs /\ length qs = length M /\
     forall q, In q qs -> exists k p, In k M /\ wf_prefix W p /\ pkey W p = k /\ snd (Get t' (Some p)) = true /\ covers W p q).
  { induction M as [|k M IH]; intros NM IM.
    - exists []. split; [intros x []|]. split; [constructor|]. split; auto. intros q [].
    - inversion NM as [|? ? Nk NM']; subst. destruct (IH NM') as (qs & Iq & Nq & Lq & Pq); [intros x Hx; apply IM; right; auto|].
      destruct (CH k) as (q & Iqp & p & Hp & Ek & G & Cv); [apply IM; left; auto|].
      exists (q :: qs). split; [intros x [<-|Hx]; auto|]. split.
      + constructor; auto. intros Hin. destruct (Pq q Hin) as (k' & p' & Ik' & Hp' & Ek' & G' & Cv'). apply Nk.
        assert (k = k'); [|subst k'; congruence]. rewrite <- Ek, <- Ek'.
        pose proof (Fw q Iqp) as Hq. destruct (prefix_inhabited q Hq) as (a & Ha & Ia).
        assert (I1 : in_prefix W p a) by (eapply in_prefix_covers; [exact Hp|exact Hq|auto|exact Cv|auto]).
        assert (I2 : in_prefix W p' a) by (eapply in_prefix_covers; [exact Hp'|exact Hq|auto|exact Cv'|auto]).
        pose proof (proj1 (C17_single_value_partial p Hp) G) as [C1 _].
        pose proof (proj1 (C17_single_value_partial p' Hp') G') as [C2 _].
        pose proof (maximal_covers p p' a Hp Hp' Ha I1 I2 G C2) as X1.
        pose proof (maximal_covers p' p a Hp' Hp Ha I2 I1 G' C1) as X2.
        apply covers_pre in X1; auto. apply covers_pre in X2; auto. apply (key_eq_iff W); auto. apply pre_antisym; auto.
      + split; [cbn; auto|]. intros x [<-|Hx]; [exists k, p; split; [left; auto|auto]|].
        destruct (Pq x Hx) as (k' & p' & Ik' & R). exists k', p'. split; [right; auto|exact R]. }
  destruct (LE L ND (incl_refl _)) as (qs & Iq & Nq & Lq & _). rewrite <- Lq. apply NoDup_incl_length; auto.
Qed.
End One.

(* ... and tables of one value that cover the same addresses aggregate to the same
   prefixes; in particular aggregating the result again changes nothing. *)
Theorem C17_single_value_unique_partial : forall peq (t1 t1' t2 t2' : tableX T) g1 g2,
  (forall a b, peq a b = true -> a = b) ->
  reachable t1 -> decides t1 g1 -> equivalence g1 -> tbl_Aggregate peq t1 = Ok t1' ->
  reachable t2 -> decides t2 g2 -> equivalence g2 -> tbl_Aggregate peq t2 = Ok t2' ->
  (forall p v q w, wf_prefix W p -> wf_prefix W q -> Get t1 (Some p) = (v, true) -> Get t1 (Some q) = (w, true) -> g1 v w = true) ->
  (forall p v q w, wf_prefix W p -> wf_prefix W q -> Get t2 (Some p) = (v, true) -> Get t2 (Some q) = (w, true) -> g2 v w = true) ->
  (forall a, a < 2 ^ W -> value_at t1 a = None <-> value_at t2 a = None) ->
  forall p, wf_prefix W p -> snd (Get t1' (Some p)) = snd (Get t2' (Some p)).
Proof.
  intros peq t1 t1' t2 t2' g1 g2 Hs R1 D1 Q1 A1 R2 D2 Q2 A2 O1 O2 Hc p Hp. apply Bool.eq_iff_eq_true.
  rewrite (C17_single_value_partial peq Hs t1 t1' g1 R1 D1 Q1 A1 O1 p Hp).
  rewrite (C17_single_value_partial peq Hs t2 t2' g2 R2 D2 Q2 A2 O2 p Hp).
  assert (E : forall q, covered t1 q <-> covered t2 q).
  { intros q. unfold covered. split; intros C a Ha Ia X; apply (C a Ha Ia); apply (Hc a Ha); exact X. }
  rewrite !E. tauto.
Qed.

(* aggregating the mutable copy of an aggregated table (the aggregated table itself
   has lost its comparator, C18) changes nothing *)
Theorem C17_single_value_idempotent_partial : forall peq (t t' m t'' : tableX T) g,
  (forall a b, peq a b = true -> a = b) ->
  reachable t -> decides t g -> equivalence g -> tbl_Aggregate peq t = Ok t' ->
  (forall p v q w, wf_prefix W p -> wf_prefix W q -> Get t (Some p) = (v, true) -> Get t (Some q) = (w, true) -> g v w = true) ->
  Table_ goeq t' = Some m -> decides m g -> tbl_Aggregate peq m = Ok t'' ->
  forall p, wf_prefix W p -> snd (Get t'' (Some p)) = snd (Get t' (Some p)).
Proof.
  intros peq t t' m t'' g Hs R D Q A O HT Dm Am.
  destruct (tinv' W IPW zeroT box goeq peq Hs t t' R A) as (Hw' & _).
  assert (R' : reachable t') by (eapply reach_aggregate; eauto).
  assert (Em : tx_trie m = tx_trie t').
  { unfold Table_ in HT. destruct (tx_eq t'); injection HT as <-; reflexivity. }
  assert (Rm : reachable m) by (eapply reach_Table_; eauto).
  assert (Hwm : wf [] (tx_trie m)) by (rewrite Em; exact Hw').
  assert (G : forall p, wf_prefix W p -> Get m (Some p) = Get t' (Some p)).
  { intros p Hp. rewrite !(Get_fk W HW) by auto. rewrite Em. reflexivity. }
  assert (O' : forall p v, wf_prefix W p -> Get m (Some p) = (v, true) -> exists q w, wf_prefix W q /\ Get t (Some q) = (w, true) /\ g v w = true).
  { intros p v Hp Gp. rewrite G in Gp by auto.
    assert (Lk : N.of_nat (length (key p)) <= W) by (fold (nlen (key p)); rewrite nlen_key; apply Hp).
    pose proof (C16_aggregate_function peq Hs t t' g R D Q A (key p) Lk) as F.
    rewrite entry_vk in F by auto. rewrite (Get_fk W HW) in Gp by auto. unfold vk in F.
    destruct (fk (key p) (tx_trie t')) as [[q d]|]; [|discriminate]. injection Gp as <-. cbn in F.
    rewrite (aggregated_ext g (N.to_nat W) (entry_at t) (fun k => if N.of_nat (length k) <=? W then entry_at t k else None)) in F.
    2:{ intros x Lx. assert (N.of_nat (length x) <=? W = true) as -> by (apply N.leb_le; lia). reflexivity. }
    destruct (aggregated _ _ _ _ _) as [w|] eqn:Ea in F; [|contradiction]. apply aggregated_val in Ea. destruct Ea as [x Ea].
    destruct (N.leb_spec (N.of_nat (length x)) W) as [Lx|]; [|discriminate].
    destruct (key_prefix_of_bits W x Lx) as [Wx _]. unfold entry_at in Ea.
    destruct (Get t (Some (prefix_of_bits W x))) as [w0 b] eqn:E. destruct b; [|discriminate]. injection Ea as ->. eauto. }
  intros p Hp. symmetry.
  refine (C17_single_value_unique_partial peq t t' m t'' g g Hs R D Q A Rm Dm Q Am O _ _ p Hp).
  - intros p1 v q1 w Hp1 Hq1 G1 G2. destruct (O' _ _ Hp1 G1) as (p2 & v2 & Hp2 & G1' & E1).
    destruct (O' _ _ Hq1 G2) as (q2 & w2 & Hq2 & G2' & E2). destruct Q as (Q1 & Q2 & Q3).
    eapply Q3; [exact E1|]. eapply Q3; [exact (O _ _ _ _ Hp2 Hq2 G1' G2')|]. apply Q2. exact E2.
  - intros a Ha. destruct (C16_aggregate_partial W IPW zeroT box Hbox goeq peq Hs t t' g R D Q A a Ha) as [X _].
    assert (V : value_at m a = value_at t' a).
    { rewrite !(value_lastm W IPW zeroT box Hbox goeq) by auto. rewrite Em. reflexivity. }
    rewrite V. symmetry. exact X.
Qed.
End Props.
