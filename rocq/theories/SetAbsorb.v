(* SetAbsorb.v - adding a set that is already contained, or removing one that is
   disjoint, gives back the very same trie, host bits of the stored prefixes
   included; proofs. *)
From Verif Require Export SetMore.
From Coq Require Import Arith ZifyBool ZifyNat ZifyN.

Section Absorb.
Variable W : N.
Hypothesis HW : 0 < W /\ W < 2 ^ 15.
Notation key := (key W).
Notation swf := (swf W).
Notation den := (den W).
Notation WN := (N.to_nat W).
Implicit Types t l r me other : snode.
Variable peq : snode -> snode -> bool.
Hypothesis peq_sound : forall a b, peq a b = true -> a = b.

Lemma rebuild k p d s h l r : swf k (Node p d s h false l r) ->
  newHead (mkPrefix (paddr p) (plen p)) l r = Ok (Node p d s h false l r).
Proof.
  intros H. destruct (swf_inactive _ _ _ _ _ _ _ _ H) as (E & Nl & Nr & _ & M & _). rewrite E.
  unfold newHead, mk_opt, flatten. destruct l as [|pl dl sl hl al ll lr]; [congruence|]. destruct r as [|pr dr sr hr ar rl rr]; [congruence|].
  unfold mergeable in M. cbn [active prefix_of plen] in *. destruct p as [pa pn]. cbn [paddr plen] in *.
  destruct (N.eqb_spec (plen pl) (plen pr)) as [E1|E1]; cbn [negb bind]; [|reflexivity].
  destruct (N.eqb_spec (plen pl) (pn + 1)) as [E2|E2]; cbn [negb bind]; [|reflexivity].
  rewrite <- E1, E2, N.eqb_refl in M. destruct al, ar; cbn in *; try reflexivity. discriminate.
Qed.
Lemma other_key k c p d s h a l r : swf (k ++ [c]) (Node p d s h a l r) -> exists u, key p = k ++ c :: u.
Proof. intros H. destruct (swf_pre _ _ _ _ _ _ _ _ _ H) as [u E]. rewrite <- app_assoc in E. eauto. Qed.

Lemma union_absorb fuel : forall k me other, (room W me + room W other < fuel)%nat -> swf k me -> swf k other ->
  (forall x, length x = WN -> den other x -> den me x) -> union W peq fuel me other = Ok me.
Proof.
  induction fuel as [|fuel IH]; intros k me other F Hm Ho S; [lia|]. cbn [union].
  destruct (peq me other); [reflexivity|].
  destruct other as [|op od os oh oa ol or]; [destruct me; reflexivity|].
  destruct me as [|mp md ms mh ma ml mr].
  { exfalso. destruct (den_nonempty W _ _ Ho ltac:(discriminate)) as (x & Lx & D). exact (S x Lx D). }
  set (me := Node mp md ms mh ma ml mr) in *. set (other := Node op od os oh oa ol or) in *.
  pose proof (swf_prefix _ _ _ _ _ _ _ _ _ Hm) as Pm. pose proof (swf_prefix _ _ _ _ _ _ _ _ _ Ho) as Po.
  pose proof (wf_key_len W _ Pm) as Lm. pose proof (wf_key_len W _ Po) as Lo.
  pose proof (Key.compare_spec W HW mp op Pm Po) as C.
  destruct C as [E|c x E|c x E|q c ra rb rev E1 E2 Er]; cbn beta iota zeta.
  - destruct ma; [reflexivity|]. destruct oa.
    { exfalso. destruct (full_leaf W HW me k (key op)) as (p & I & P); [exact Hm|exact Lo| |].
      - intros x Lx Px. apply S; auto. apply (den_active _ _ _ _ _ _ _ _ _ Ho). exact Px.
      - rewrite <- E in P. cbn [stored me app] in I. apply in_app_or in I. 
        assert (G : exists c, pre (key mp ++ [c]) (key p)).
        { destruct I as [I|I]; [exists false; apply (stored_wf W _ _ _ (proj1 (swf_l _ _ _ _ _ _ _ _ _ Hm)) I)|exists true; apply (stored_wf W _ _ _ (proj1 (swf_r _ _ _ _ _ _ _ _ _ Hm)) I)]. }
        destruct G as [c G]. apply pre_length in P. apply pre_length in G. rewrite app_length in G. cbn in G. lia. }
    pose proof (room_kid W HW peq peq_sound _ _ _ _ _ _ _ _ false Hm) as R1. pose proof (room_kid W HW peq peq_sound _ _ _ _ _ _ _ _ true Hm) as R2.
    pose proof (room_kid W HW peq peq_sound _ _ _ _ _ _ _ _ false Ho) as R3. pose proof (room_kid W HW peq peq_sound _ _ _ _ _ _ _ _ true Ho) as R4. cbn [kid] in R1, R2, R3, R4.
    fold me in R1, R2. fold other in R3, R4.
    assert (SK : forall c x, length x = WN -> den (kid c ol or) x -> den (kid c ml mr) x).
    { intros c x Lx D. pose proof (swf_kid _ _ _ _ _ _ _ _ _ c Ho) as Hk. pose proof (den_pre _ _ _ _ (proj1 Hk) D) as P. rewrite <- E in P.
      assert (Dm : den me x) by (apply S; [exact Lx|]; apply (den_inactive _ _ _ _ _ _ _ _ _ Ho); destruct c; auto).
      apply (den_inactive _ _ _ _ _ _ _ _ _ Hm) in Dm. pose proof (swf_kid _ _ _ _ _ _ _ _ _ (negb c) Hm) as Hn.
      pose proof (den_other_side _ _ _ _ _ Hn P) as ND. destruct c; cbn [kid negb] in *; tauto. }
    pose proof (swf_l _ _ _ _ _ _ _ _ _ Ho) as Hol. pose proof (swf_r _ _ _ _ _ _ _ _ _ Ho) as Hor. rewrite <- E in Hol, Hor.
    rewrite (IH _ ml ol ltac:(lia) (swf_l _ _ _ _ _ _ _ _ _ Hm) Hol (SK false)). cbn [bind].
    rewrite (IH _ mr or ltac:(lia) (swf_r _ _ _ _ _ _ _ _ _ Hm) Hor (SK true)). cbn [bind].
    destruct (_ && _); [reflexivity|]. apply (rebuild k). exact Hm.
  - cbn [active child0 child1 prefix_of me other]. destruct ma; [reflexivity|].
    assert (Ho' : swf (key mp ++ [c]) other) by (eapply swf_rebase; [exact Ho|rewrite E; apply pre_snoc_cons]).
    pose proof (room_kid W HW peq peq_sound _ _ _ _ _ _ _ _ c Hm) as RK. fold me in RK.
    assert (X : union W peq fuel (kid c ml mr) other = Ok (kid c ml mr)).
    { apply (IH (key mp ++ [c])); [lia|apply (swf_kid _ _ _ _ _ _ _ _ _ c Hm)|exact Ho'|]. intros y Ly D.
      pose proof (S y Ly D) as Dm. apply (den_inactive _ _ _ _ _ _ _ _ _ Hm) in Dm. pose proof (swf_kid _ _ _ _ _ _ _ _ _ (negb c) Hm) as Hn.
      pose proof (den_other_side _ _ _ _ _ Hn (den_pre _ _ _ _ (proj1 Ho') D)) as ND. destruct c; cbn [kid negb] in *; tauto. }
    destruct c; cbn [kid] in X; rewrite X; cbn [bind]; apply (rebuild k); exact Hm.
  - exfalso. assert (G : exists y, length y = WN /\ den other y /\ pre (key op ++ [negb c]) y).
    { destruct oa.
      - exists (pad W (key op ++ [negb c])). assert (L : (length (key op ++ [negb c]) <= WN)%nat).
        { rewrite E in Lm. rewrite app_length in *. cbn in *. lia. }
        split; [apply pad_length; exact L|]. split; [|apply pad_pre]. apply (den_active _ _ _ _ _ _ _ _ _ Ho). eapply pre_app. apply pad_pre.
      - pose proof (swf_kid _ _ _ _ _ _ _ _ _ (negb c) Ho) as Hk. destruct (den_nonempty W _ _ Hk) as (y & Ly & D); [eapply kid_nonnil; exact Ho|].
        exists y. split; [exact Ly|]. split; [|exact (den_pre _ _ _ _ (proj1 Hk) D)]. apply (den_inactive _ _ _ _ _ _ _ _ _ Ho). destruct c; cbn in *; auto. }
    destruct G as (y & Ly & D & P). pose proof (den_pre_node _ _ _ _ _ _ _ _ _ _ Hm (S y Ly D)) as Q.
    assert (Q' : pre (key op ++ [c]) y) by (eapply pre_trans; [|exact Q]; rewrite E; apply pre_snoc_cons).
    pose proof (pre_snoc_inj _ _ _ _ P Q'). destruct c; discriminate.
  - exfalso. destruct (den_nonempty W _ _ Ho ltac:(discriminate)) as (y & Ly & D).
    pose proof (den_pre_node _ _ _ _ _ _ _ _ _ _ Hm (S y Ly D)) as Q. pose proof (den_pre_node _ _ _ _ _ _ _ _ _ _ Ho D) as P.
    rewrite E1 in Q. rewrite E2 in P. destruct P as [u ->]. destruct Q as [v Q]. rewrite <- !app_assoc in Q. apply app_inv_head in Q. destruct c; cbn in Q; discriminate.
Qed.
Lemma Union_absorb k me other : swf k me -> swf k other -> (forall x, length x = WN -> den other x -> den me x) -> Union W peq me other = Ok me.
Proof. intros Hm Ho S. apply (union_absorb _ k); auto. pose proof (room_max W HW peq peq_sound me). pose proof (room_max W HW peq peq_sound other). unfold fuelW. lia. Qed.

(* joining the children of a node gives the node back *)
Lemma union_children k p d s h l r : swf k (Node p d s h false l r) -> Union W peq l r = Ok (Node p d s h false l r).
Proof.
  intros H. pose proof (rebuild _ _ _ _ _ _ _ H) as RB. destruct (swf_inactive _ _ _ _ _ _ _ _ H) as (_ & Nl & Nr & Np & M & PL).
  pose proof (swf_l _ _ _ _ _ _ _ _ _ H) as Hl. pose proof (swf_r _ _ _ _ _ _ _ _ _ H) as Hr. pose proof (swf_prefix _ _ _ _ _ _ _ _ _ H) as Hp.
  unfold Union, fuelW. destruct (2 * N.to_nat W + 6)%nat as [|fuel] eqn:EF; [lia|]. cbn [union].
  destruct l as [|pl dl sl hl al ll lr]; [congruence|]. destruct r as [|pr dr sr hr ar rl rr]; [congruence|].
  pose proof (swf_prefix _ _ _ _ _ _ _ _ _ Hl) as Pl. pose proof (swf_prefix _ _ _ _ _ _ _ _ _ Hr) as Pr.
  destruct (other_key _ _ _ _ _ _ _ _ _ Hl) as [u El]. destruct (other_key _ _ _ _ _ _ _ _ _ Hr) as [v Ev].
  destruct (peq _ _) eqn:PE.
  { exfalso. apply peq_sound in PE. injection PE as -> _ _ _ _ _ _. rewrite El in Ev. apply app_inv_head in Ev. discriminate. }
  pose proof (Key.compare_spec W HW pl pr Pl Pr) as C.
  destruct C as [E|c x E|c x E|q c ra rb rev E1 E2 Er]; cbn beta iota zeta.
  - exfalso. rewrite El, Ev in E. apply app_inv_head in E. discriminate.
  - exfalso. rewrite El, Ev, <- app_assoc in E. apply app_inv_head in E. discriminate.
  - exfalso. rewrite El, Ev, <- app_assoc in E. apply app_inv_head in E. discriminate.
  - assert (Q : q = key p /\ c = false).
    { rewrite El in E1. rewrite Ev in E2. clear -E1 E2. revert q E1 E2. generalize (key p) as z. induction z as [|b z IH]; intros q E1 E2; destruct q as [|b' q]; cbn in *.
      - injection E1 as <- <-. auto.
      - injection E1 as <- _. discriminate.
      - injection E1 as <- _. injection E2 as E2 _. destruct b; discriminate.
      - injection E1 as -> E1. injection E2 as E2. destruct (IH q E1 E2) as [-> ->]. auto. }
    destruct Q as [-> ->]. replace (xorb (if rev then false else negb false) rev) with true by (destruct rev; reflexivity). cbn beta iota.
    rewrite nlen_key. assert (LP : plen p <= plen pl) by (rewrite <- !(nlen_key W), E1, nlen_app; lia).
    destruct (join_prefix_spec W HW pl (plen p) Pl LP) as (Wj & Lj & Kj & _).
    assert (EJ : join_prefix W pl (plen p) = mkPrefix (paddr p) (plen p)).
    { rewrite E1, firstn_app in Kj. rewrite key_length, Nat.sub_diag in Kj. rewrite <- (key_length W p), firstn_all in Kj. cbn [firstn] in Kj. rewrite app_nil_r in Kj.
      pose proof (join_normal W HW pl (plen p) Pl LP) as NJ. pose proof (clean_key_eq W _ _ Wj Hp Kj) as CK.
      rewrite (normal_clean W _ NJ), (normal_clean W _ Np) in CK. rewrite CK. destruct p; reflexivity. }
    rewrite EJ. exact RB.
Qed.
Lemma diff_absorb fuel : forall k me other, (room W me + room W other < fuel)%nat -> swf k me -> swf [] other ->
  (forall x, length x = WN -> den me x -> den other x -> False) -> difference W peq fuel me other = Ok me.
Proof.
  induction fuel as [|fuel IH]; intros k me other F Hm Ho S; [lia|]. cbn [difference].
  destruct me as [|mp md ms mh ma ml mr]; [reflexivity|]. destruct other as [|op od os oh oa ol or]; [reflexivity|].
  set (me := Node mp md ms mh ma ml mr) in *. set (other := Node op od os oh oa ol or) in *.
  pose proof (swf_prefix _ _ _ _ _ _ _ _ _ Hm) as Pm. pose proof (swf_prefix _ _ _ _ _ _ _ _ _ Ho) as Po.
  pose proof (Key.compare_spec W HW mp op Pm Po) as C.
  assert (INACT : ma = false -> (lft <- difference W peq fuel ml other ;; rgt <- difference W peq fuel mr other ;;
          if peq lft ml && peq rgt mr then Ok me else Union W peq lft rgt) = Ok me).
  { intros ->. pose proof (room_kid W HW peq peq_sound _ _ _ _ _ _ _ _ false Hm) as R1. pose proof (room_kid W HW peq peq_sound _ _ _ _ _ _ _ _ true Hm) as R2. cbn [kid] in R1, R2. fold me in R1, R2.
    rewrite (IH _ ml other ltac:(lia) (swf_l _ _ _ _ _ _ _ _ _ Hm) Ho) by (intros x Lx D; apply S; auto; apply (den_inactive _ _ _ _ _ _ _ _ _ Hm); auto).
    cbn [bind].
    rewrite (IH _ mr other ltac:(lia) (swf_r _ _ _ _ _ _ _ _ _ Hm) Ho) by (intros x Lx D; apply S; auto; apply (den_inactive _ _ _ _ _ _ _ _ _ Hm); auto).
    cbn [bind]. destruct (_ && _); [reflexivity|]. apply (union_children k). exact Hm. }
  assert (ACT : ma = true -> pre (key mp) (key op) -> False).
  { intros -> P. destruct (den_nonempty W _ _ Ho ltac:(discriminate)) as (x & Lx & D). apply (S x Lx); [|exact D].
    apply (den_active _ _ _ _ _ _ _ _ _ Hm). eapply pre_trans; [exact P|]. exact (den_pre_node _ _ _ _ _ _ _ _ _ _ Ho D). }
  destruct C as [E|c x E|c x E|q c ra rb rev E1 E2 Er]; cbn beta iota zeta.
  - destruct ma; cbn [negb]; [exfalso; apply ACT; auto; rewrite E; apply pre_refl|apply INACT; reflexivity].
  - destruct ma; cbn [negb]; [exfalso; apply ACT; auto; rewrite E; apply pre_app_r|apply INACT; reflexivity].
  - destruct oa.
    + exfalso. destruct (den_nonempty W _ _ Hm ltac:(discriminate)) as (y & Ly & D). apply (S y Ly D). apply (den_active _ _ _ _ _ _ _ _ _ Ho).
      eapply pre_trans; [|exact (den_pre_node _ _ _ _ _ _ _ _ _ _ Hm D)]. rewrite E. apply pre_app_r.
    + pose proof (room_kid W HW peq peq_sound _ _ _ _ _ _ _ _ c Ho) as R. fold other in R.
      apply (IH k); [lia|exact Hm|eapply swf_weaken; [apply pre_nil|apply (swf_kid _ _ _ _ _ _ _ _ _ c Ho)]|].
      intros y Ly D1 D2. apply (S y Ly D1). apply (den_inactive _ _ _ _ _ _ _ _ _ Ho). destruct c; auto.
  - reflexivity.
Qed.
Lemma Difference_absorb k me other : swf k me -> swf [] other -> (forall x, length x = WN -> den me x -> den other x -> False) -> Difference W peq me other = Ok me.
Proof. intros Hm Ho S. apply (diff_absorb _ k); auto. pose proof (room_max W HW peq peq_sound me). pose proof (room_max W HW peq peq_sound other). unfold fuelW. lia. Qed.
End Absorb.
