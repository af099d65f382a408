(* PropsSame2.v - C56 for sets: taking away a set that has no address in common
   gives back the very same set, and allocates nothing. *)
From Verif Require Export PropsSame.
From Verif Require Import HeapCost PropsCost2 SetProof.
From Coq Require Import Arith ZifyBool ZifyNat ZifyN.
Local Open Scope nat_scope.

Section C56Sets.
Variable W : N.
Hypothesis IPW : ip_width W.
Let HW : (0 < W /\ W < 2 ^ 15)%N := ip_HW W IPW.
Notation key := (key W).
Notation swf := (SetProof.swf W).
Notation room := (SetProof.room W).
Notation den := (SetProof.den W).
Notation np := (@nop unit).
Notation wn := (N.to_nat W).
Let NSn : forall a b : snode, np a b = true -> a = b. Proof. discriminate. Qed.

Lemma ptr_eqb_refl (p : ptr) : ptr_eqb p p = true.
Proof. destruct p; cbn; [apply Nat.eqb_refl|reflexivity]. Qed.

Lemma diff_disjoint : forall f k me other pm pq (h : heap unit), denotes h pm me -> denotes h pq other -> swf k me -> swf [] other ->
  room me + room other < f -> (forall x, length x = wn -> den me x -> den other x -> False) ->
  run (h_difference W f pm pq) h = (h, Ok pm).
Proof.
  induction f as [|f IH]; intros k me other pm pq h Dm Do Hm Ho F X; [lia|]. cbn [h_difference].
  destruct me as [|mp md ms mh ma ml mr]; [cbn in Dm; subst; reflexivity|].
  destruct other as [|op od os oh oa ol or]; [cbn in Do; subst; destruct pm; reflexivity|].
  destruct (den_node _ _ _ _ _ _ _ _ _ Dm) as (i & e0 & e1 & -> & Ei & M0 & M1).
  pose proof Do as Do'. destruct (den_node _ _ _ _ _ _ _ _ _ Do') as (j & d0 & d1 & -> & Ej & O0 & O1). cbn [nilp orb].
  rewrite (run_load _ _ _ _ Ei), (run_load _ _ _ _ Ej). cbn [hPrefix hactive hc0 hc1].
  pose proof (swf_prefix W _ _ _ _ _ _ _ _ Hm) as Pm. pose proof (swf_prefix W _ _ _ _ _ _ _ _ Ho) as Po.
  pose proof (Key.compare_spec W HW mp op Pm Po) as C.
  set (me := Node mp md ms mh ma ml mr) in *. set (other := Node op od os oh oa ol or) in *.
  destruct (den_nonempty W _ _ Hm ltac:(discriminate)) as (xm & Lm & Im).
  destruct (den_nonempty W _ _ Ho ltac:(discriminate)) as (xo & Lo & Io).
  pose proof (den_pre_node W _ _ _ _ _ _ _ _ _ Hm Im) as Qm. pose proof (den_pre_node W _ _ _ _ _ _ _ _ _ Ho Io) as Qo.
  assert (INACT : ma = false -> run (pbind (h_difference W f e0 (Some j)) (fun lft => pbind (h_difference W f e1 (Some j)) (fun rgt =>
        if ptr_eqb lft e0 && ptr_eqb rgt e1 then ret (Some i) else h_Union W lft rgt))) h = (h, Ok (Some i))).
  { intros ->. pose proof (room_kid W HW np NSn _ _ _ _ _ _ _ _ false Hm) as R1. pose proof (room_kid W HW np NSn _ _ _ _ _ _ _ _ true Hm) as R2.
    cbn [kid] in R1, R2. fold me in R1, R2.
    rewrite run_pbind, (IH _ ml other e0 (Some j) h M0 Do (swf_l W _ _ _ _ _ _ _ _ Hm) Ho ltac:(lia)); [cbn [fst snd]|intros x Lx A B; apply (X x Lx); [right; left; exact A|exact B]].
    rewrite run_pbind, (IH _ mr other e1 (Some j) h M1 Do (swf_r W _ _ _ _ _ _ _ _ Hm) Ho ltac:(lia)); [cbn [fst snd]|intros x Lx A B; apply (X x Lx); [right; right; exact A|exact B]].
    rewrite !ptr_eqb_refl. reflexivity. }
  destruct C as [E0|c x E0|c x E0|q' c xa xb rev E1 E2 Er]; cbn beta iota zeta.
  - destruct ma; cbn [negb]; [|apply INACT; reflexivity]. exfalso. apply (X xo Lo); [|exact Io].
    unfold me. rewrite (den_active W _ _ _ _ _ _ _ _ Hm). rewrite E0. exact Qo.
  - destruct ma; cbn [negb]; [|apply INACT; reflexivity]. exfalso. apply (X xo Lo); [|exact Io].
    unfold me. rewrite (den_active W _ _ _ _ _ _ _ _ Hm). rewrite E0 in Qo. eapply pre_app. exact Qo.
  - destruct oa.
    + exfalso. apply (X xm Lm); [exact Im|]. unfold other. rewrite (den_active W _ _ _ _ _ _ _ _ Ho). rewrite E0 in Qm. eapply pre_app. exact Qm.
    + pose proof (room_kid W HW np NSn _ _ _ _ _ _ _ _ c Ho) as R1. fold other in R1.
      replace (kidp c (mkH op od os oh false d0 d1)) with (if c then d1 else d0) by (destruct c; reflexivity).
      apply (IH k me (kid c ol or)).
      * exact Dm.
      * destruct c; assumption.
      * exact Hm.
      * eapply swf_weaken; [apply pre_nil|]. apply (swf_kid W _ _ _ _ _ _ _ _ c Ho).
      * lia.
      * intros y Ly A B. apply (X y Ly A). right. destruct c; [right|left]; exact B.
  - reflexivity.
Qed.

Theorem C56_difference_disjoint : forall s t p q (h : heap unit), set_value W s -> set_value W t -> denotes h p s -> denotes h q t ->
  (forall a, mem W s a -> mem W t a -> False) ->
  run (h_Difference W p q) h = (h, Ok p).
Proof.
  intros s t p q h Hs Ht Dp Dq X. assert (Ss : swf [] s) by (apply value_swf; auto). assert (St : swf [] t) by (apply value_swf; auto).
  pose proof (room_max W HW _ NSn s) as R1. pose proof (room_max W HW _ NSn t) as R2.
  unfold h_Difference. eapply (diff_disjoint (fuelW W) [] s t); eauto.
  - unfold fuelW. lia.
  - intros x Lx A B. destruct (full_of W HW x Lx) as (a & La & <-). apply (X a); apply (mem_den W []); auto; [apply Ss|apply St].
Qed.
End C56Sets.
