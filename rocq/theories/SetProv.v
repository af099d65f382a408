(* SetProv.v - host bits: set operations on sets without host bits give sets
   without host bits; proofs. *)
From Verif Require Export SetMore.
From Coq Require Import Arith Sorted ZifyBool ZifyNat ZifyN.

Section SetProv.
Variable W : N.
Hypothesis HW : 0 < W /\ W < 2 ^ 15.
Notation key := (key W).
Notation swf := (swf W).
Notation WN := (N.to_nat W).
Implicit Types t l r me other : snode.
Notation clean := (Forall (canonical W)).

Lemma clean_newHead p l r t : canonical W p -> clean (stored l) -> clean (stored r) -> newHead p l r = Ok t -> clean (stored t).
Proof.
  intros Hp Hl Hr. unfold newHead, mk_opt, flatten. destruct l as [|pl dl sl hl al ll lr]; [discriminate|].
  destruct r as [|pr dr sr hr ar rl rr]; [discriminate|]. set (l := Node pl dl sl hl al ll lr) in *. set (r := Node pr dr sr hr ar rl rr) in *.
  assert (G : clean (stored (@mk unit p None false l r))) by (cbn [mk stored app]; apply Forall_app; auto).
  assert (G2 : clean (stored (@mk unit p None true Nil Nil))) by (cbn; auto).
  destruct (negb _); cbn [bind]; [intros [= <-]; exact G|]. destruct (negb _); cbn [bind]; [intros [= <-]; exact G|].
  destruct (_ || _); cbn [bind]; intros [= <-]; [exact G|exact G2].
Qed.
Lemma half_canonical c p : wf_prefix W p -> plen p < W -> canonical W (half W c p).
Proof.
  intros Hp Hl. unfold canonical, net. cbn [plen half]. rewrite half_addr by auto.
  replace (W - (plen p + 1)) with (W - plen p - 1) by lia. rewrite N.div_mul by (apply N.pow_nonzero; lia). reflexivity.
Qed.

Variable peq : snode -> snode -> bool.
Hypothesis peq_sound : forall a b, peq a b = true -> a = b.

Lemma clean_union fuel : forall k me other t, swf k me -> swf k other ->
  clean (stored me) -> clean (stored other) -> union W peq fuel me other = Ok t -> clean (stored t).
Proof.
  induction fuel as [|fuel IH]; intros k me other t Hm Ho Cm Co; [discriminate|]. cbn [union].
  destruct (peq me other); [intros [= <-]; exact Cm|].
  destruct me as [|mp md ms mh ma ml mr]; [destruct other; intros [= <-]; auto|].
  destruct other as [|op od os oh oa ol or]; [intros [= <-]; auto|].
  set (me := Node mp md ms mh ma ml mr) in *. set (other := Node op od os oh oa ol or) in *.
  pose proof (swf_prefix _ _ _ _ _ _ _ _ _ Hm) as Pm. pose proof (swf_prefix _ _ _ _ _ _ _ _ _ Ho) as Po.
  pose proof (Key.compare_spec W HW mp op Pm Po) as C.
  assert (KC : forall k p d s h a l r, swf k (Node p d s h a l r) -> clean (stored (Node p d s h a l r)) -> clean (stored l) /\ clean (stored r)).
  { intros k0 p d s h a l r _ F. cbn [stored] in F. apply Forall_app in F. destruct F as [_ F]. apply Forall_app in F. exact F. }
  destruct C as [E|c x E|c x E|q c ra rb rev E1 E2 Er]; cbn beta iota zeta.
  - destruct ma; [intros [= <-]; auto|]. destruct oa; [intros [= <-]; auto|].
    destruct (KC _ _ _ _ _ _ _ _ Hm Cm) as [Cml Cmr]. destruct (KC _ _ _ _ _ _ _ _ Ho Co) as [Col Cor].
    pose proof (swf_l _ _ _ _ _ _ _ _ _ Hm) as Hml. pose proof (swf_r _ _ _ _ _ _ _ _ _ Hm) as Hmr.
    pose proof (swf_l _ _ _ _ _ _ _ _ _ Ho) as Hol. pose proof (swf_r _ _ _ _ _ _ _ _ _ Ho) as Hor. rewrite <- E in Hol, Hor.
    destruct (union W peq fuel ml ol) as [lft| |] eqn:EL; cbn [bind]; try discriminate.
    destruct (union W peq fuel mr or) as [rgt| |] eqn:ER; cbn [bind]; try discriminate.
    destruct (peq lft ml && peq rgt mr); [intros [= <-]; auto|].
    destruct (swf_inactive _ _ _ _ _ _ _ _ Hm) as (_ & _ & _ & Nmp & _).
    apply clean_newHead; [destruct mp; exact Nmp|eapply IH; [exact Hml|exact Hol|auto..]|eapply IH; [exact Hmr|exact Hor|auto..]].
  - cbn [active child0 child1 prefix_of me other]. destruct ma; [intros [= <-]; auto|].
    destruct (KC _ _ _ _ _ _ _ _ Hm Cm) as [Cml Cmr]. destruct (swf_inactive _ _ _ _ _ _ _ _ Hm) as (_ & _ & _ & Nmp & _).
    assert (Ho' : swf (key mp ++ [c]) other) by (eapply swf_rebase; [exact Ho|rewrite E; apply pre_snoc_cons]).
    pose proof (swf_kid _ _ _ _ _ _ _ _ _ c Hm) as Hk.
    destruct c; cbn [kid] in Hk.
    + destruct (union W peq fuel mr other) as [y| |] eqn:EL; cbn [bind]; try discriminate.
      apply clean_newHead; [destruct mp; exact Nmp|auto|eapply IH; [exact Hk|exact Ho'|auto..]].
    + destruct (union W peq fuel ml other) as [y| |] eqn:EL; cbn [bind]; try discriminate.
      apply clean_newHead; [destruct mp; exact Nmp|eapply IH; [exact Hk|exact Ho'|auto..]|auto].
  - cbn [active child0 child1 prefix_of me other]. destruct oa; [intros [= <-]; auto|].
    destruct (KC _ _ _ _ _ _ _ _ Ho Co) as [Col Cor]. destruct (swf_inactive _ _ _ _ _ _ _ _ Ho) as (_ & _ & _ & Nop & _).
    assert (Hm' : swf (key op ++ [c]) me) by (eapply swf_rebase; [exact Hm|rewrite E; apply pre_snoc_cons]).
    pose proof (swf_kid _ _ _ _ _ _ _ _ _ c Ho) as Hk.
    destruct c; cbn [kid] in Hk.
    + destruct (union W peq fuel or me) as [y| |] eqn:EL; cbn [bind]; try discriminate.
      apply clean_newHead; [destruct op; exact Nop|auto|eapply IH; [exact Hk|exact Hm'|auto..]].
    + destruct (union W peq fuel ol me) as [y| |] eqn:EL; cbn [bind]; try discriminate.
      apply clean_newHead; [destruct op; exact Nop|eapply IH; [exact Hk|exact Hm'|auto..]|auto].
  - assert (Lq : nlen q <= plen mp) by (rewrite <- (nlen_key W mp), E1, nlen_app; lia).
    destruct (xorb _ _); apply clean_newHead; auto; apply join_normal; auto.
Qed.
Lemma clean_Union k me other t : swf k me -> swf k other ->
  clean (stored me) -> clean (stored other) -> Union W peq me other = Ok t -> clean (stored t).
Proof. apply clean_union. Qed.


Lemma clean_kids p d s h a l r : clean (stored (Node p d s h a l r)) -> clean (stored l) /\ clean (stored r).
Proof. intros F. cbn [stored] in F. apply Forall_app in F. destruct F as [_ F]. apply Forall_app in F. exact F. Qed.
Lemma clean_half c p : wf_prefix W p -> plen p < W -> clean (stored (setNodeFromPrefix (half W c p))).
Proof. intros H L. cbn. constructor; [apply half_canonical; auto|constructor]. Qed.

(* the union of two results on the two sides of q *)
Lemma clean_sides k q a b t : pre k q -> swf (q ++ [false]) a -> swf (q ++ [true]) b ->
  clean (stored a) -> clean (stored b) -> Union W peq a b = Ok t -> clean (stored t).
Proof.
  intros K Ha Hb Ca Cb. assert (P : forall c, pre k (q ++ [c])) by (intros c; eapply pre_trans; [exact K|apply pre_app_r]).
  apply (clean_Union k); auto; [exact (swf_weaken _ _ _ _ (P false) Ha)|exact (swf_weaken _ _ _ _ (P true) Hb)].
Qed.

Lemma clean_difference fuel : forall k me other t, (room W me + room W other < fuel)%nat -> swf k me -> swf [] other ->
  clean (stored me) -> difference W peq fuel me other = Ok t -> clean (stored t).
Proof.
  induction fuel as [|fuel IH]; intros k me other t F Hm Ho Cm; [discriminate|]. cbn [difference].
  destruct me as [|mp md ms mh ma ml mr]; [intros [= <-]; auto|].
  destruct other as [|op od os oh oa ol or]; [intros [= <-]; auto|].
  set (me := Node mp md ms mh ma ml mr) in *. set (other := Node op od os oh oa ol or) in *.
  pose proof (swf_prefix _ _ _ _ _ _ _ _ _ Hm) as Pm. pose proof (swf_prefix _ _ _ _ _ _ _ _ _ Ho) as Po.
  pose proof (swf_pre _ _ _ _ _ _ _ _ _ Hm) as Km.
  pose proof (Key.compare_spec W HW mp op Pm Po) as C.
  pose proof (difference_ok W HW peq peq_sound fuel) as DO.
  assert (INACT : ma = false ->
      (bind (difference W peq fuel ml other) (fun lft => bind (difference W peq fuel mr other) (fun rgt =>
         if peq lft ml && peq rgt mr then Ok me else Union W peq lft rgt))) = Ok t -> clean (stored t)).
  { intros ->. pose proof (swf_l _ _ _ _ _ _ _ _ _ Hm) as Hml. pose proof (swf_r _ _ _ _ _ _ _ _ _ Hm) as Hmr.
    pose proof (room_kid W HW _ peq_sound _ _ _ _ _ _ _ _ false Hm) as R1. pose proof (room_kid W HW _ peq_sound _ _ _ _ _ _ _ _ true Hm) as R2.
    cbn [kid] in R1, R2. fold me in R1, R2. destruct (clean_kids _ _ _ _ _ _ _ Cm) as [Cl Cr].
    destruct (DO _ ml other ltac:(lia) Hml Ho) as (lft & EL & Sl & _).
    destruct (DO _ mr other ltac:(lia) Hmr Ho) as (rgt & ER & Sr & _). rewrite EL, ER. cbn [bind].
    destruct (peq lft ml && peq rgt mr); [intros [= <-]; auto|].
    eapply clean_sides; [exact Km|exact Sl|exact Sr|eapply (IH _ ml other); eauto; lia|eapply (IH _ mr other); eauto; lia]. }
  destruct C as [E|c x E|c x E|q c ra rb rev E1 E2 Er]; cbn beta iota zeta.
  - destruct ma; cbn [negb]; [|apply INACT; reflexivity]. destruct oa; [intros [= <-]; constructor|].
    destruct (swf_inactive _ _ _ _ _ _ _ _ Ho) as (_ & _ & _ & _ & _ & Lo).
    assert (EL : plen mp = plen op) by (rewrite <- !(nlen_key W), E; reflexivity).
    assert (Lm : plen mp < W) by lia. rewrite (halves_eq W mp Pm Lm).
    pose proof (swf_half W false mp Pm Lm) as H0. pose proof (swf_half W true mp Pm Lm) as H1.
    pose proof (room_kid W HW _ peq_sound _ _ _ _ _ _ _ _ false Ho) as R3. pose proof (room_kid W HW _ peq_sound _ _ _ _ _ _ _ _ true Ho) as R4. cbn [kid] in R3, R4.
    pose proof (swf_weaken _ _ _ _ (pre_nil _) (swf_l _ _ _ _ _ _ _ _ _ Ho)) as Hol. pose proof (swf_weaken _ _ _ _ (pre_nil _) (swf_r _ _ _ _ _ _ _ _ _ Ho)) as Hor.
    assert (RM : forall c', (room W (setNodeFromPrefix (half W c' mp)) < room W me)%nat) by (intros c'; cbn; lia).
    fold other in R3, R4. pose proof (RM false). pose proof (RM true).
    destruct (DO _ (setNodeFromPrefix (half W false mp)) ol ltac:(lia) H0 Hol) as (a & EA & Sa & _). destruct (DO _ (setNodeFromPrefix (half W true mp)) or ltac:(lia) H1 Hor) as (b & EB & Sb & _).
    rewrite EA, EB. cbn [bind].
    eapply clean_sides; [exact Km|exact Sa|exact Sb|eapply (IH _ (setNodeFromPrefix (half W false mp)) ol); [lia|exact H0|exact Hol|apply clean_half; auto|exact EA]|eapply (IH _ (setNodeFromPrefix (half W true mp)) or); [lia|exact H1|exact Hor|apply clean_half; auto|exact EB]].
  - destruct ma; cbn [negb]; [|apply INACT; reflexivity].
    assert (Lm : plen mp < W). { destruct Po as [_ Po]. rewrite <- (nlen_key W op), E, nlen_app, nlen_cons, nlen_key in Po. lia. }
    rewrite (halves_eq W mp Pm Lm).
    assert (RM : forall c', (room W (setNodeFromPrefix (half W c' mp)) < room W me)%nat) by (intros c'; cbn; lia).
    pose proof (RM false). pose proof (RM true).
    assert (KK : forall c, pre k (key mp ++ [c])) by (intros c'; eapply pre_trans; [exact Km|apply pre_app_r]).
    destruct c.
    + destruct (DO _ (setNodeFromPrefix (half W true mp)) other ltac:(lia) (swf_half W true mp Pm Lm) Ho) as (pa & EP & Sp & _). rewrite EP. cbn [bind].
      apply (clean_Union k); [eapply swf_weaken; [apply KK|apply (swf_half W false); auto]|eapply swf_weaken; [apply KK|exact Sp]|apply clean_half; auto|].
      eapply (IH _ (setNodeFromPrefix (half W true mp)) other); [lia|apply (swf_half W true); auto|exact Ho|apply clean_half; auto|exact EP].
    + destruct (DO _ (setNodeFromPrefix (half W false mp)) other ltac:(lia) (swf_half W false mp Pm Lm) Ho) as (pa & EP & Sp & _). rewrite EP. cbn [bind].
      apply (clean_Union k); [eapply swf_weaken; [apply KK|apply (swf_half W true); auto]|eapply swf_weaken; [apply KK|exact Sp]|apply clean_half; auto|].
      eapply (IH _ (setNodeFromPrefix (half W false mp)) other); [lia|apply (swf_half W false); auto|exact Ho|apply clean_half; auto|exact EP].
  - destruct oa; [intros [= <-]; constructor|].
    pose proof (room_kid W HW _ peq_sound _ _ _ _ _ _ _ _ c Ho) as RK. fold other in RK.
    eapply (IH k me (kid c ol or)); [lia|exact Hm|exact (swf_weaken _ _ _ _ (pre_nil _) (swf_kid _ _ _ _ _ _ _ _ _ c Ho))|exact Cm].
  - intros [= <-]. exact Cm.
Qed.
Lemma clean_Difference k me other t : swf k me -> swf [] other -> clean (stored me) -> Difference W peq me other = Ok t -> clean (stored t).
Proof.
  intros Hm Ho. apply (clean_difference _ k); auto. pose proof (room_max W HW _ peq_sound me). pose proof (room_max W HW _ peq_sound other). unfold fuelW. lia.
Qed.

Lemma clean_intersect fuel : forall me other t, (room W me + room W other < fuel)%nat -> swf [] me -> swf [] other ->
  clean (stored me) -> clean (stored other) -> intersect W peq fuel me other = Ok t -> clean (stored t).
Proof.
  induction fuel as [|fuel IH]; intros me other t F Hm Ho Cm Co; [discriminate|]. cbn [intersect].
  destruct me as [|mp md ms mh ma ml mr]; [intros [= <-]; auto|].
  destruct other as [|op od os oh oa ol or]; [intros [= <-]; auto|].
  set (me := Node mp md ms mh ma ml mr) in *. set (other := Node op od os oh oa ol or) in *.
  pose proof (intersect_ok W HW peq peq_sound fuel) as IO.
  assert (G : forall reversed : bool,
      (if negb ma then bind (intersect W peq fuel other ml) (fun x => bind (intersect W peq fuel other mr) (fun y => Union W peq x y))
       else if negb oa then bind (intersect W peq fuel me ol) (fun x => bind (intersect W peq fuel me or) (fun y => Union W peq x y))
       else if reversed then Ok me else Ok other) = Ok t -> clean (stored t)).
  { intros reversed. destruct ma; cbn [negb].
    - destruct oa; cbn [negb]; [destruct reversed; intros [= <-]; auto|].
      pose proof (room_kid W HW _ peq_sound _ _ _ _ _ _ _ _ false Ho) as R3. pose proof (room_kid W HW _ peq_sound _ _ _ _ _ _ _ _ true Ho) as R4. cbn [kid] in R3, R4.
      fold other in R3, R4. destruct (clean_kids _ _ _ _ _ _ _ Co) as [Cl Cr].
      pose proof (swf_l _ _ _ _ _ _ _ _ _ Ho) as Hl. pose proof (swf_r _ _ _ _ _ _ _ _ _ Ho) as Hr.
      pose proof (swf_weaken _ _ _ _ (pre_nil _) Hl) as Hl0. pose proof (swf_weaken _ _ _ _ (pre_nil _) Hr) as Hr0.
      destruct (IO me ol ltac:(lia) Hm Hl0) as (x & EX & _ & X2 & _). destruct (IO me or ltac:(lia) Hm Hr0) as (y & EY & _ & Y2 & _).
      rewrite EX, EY. cbn [bind]. eapply (clean_sides [] _ x y); [apply pre_nil|exact (X2 _ Hl)|exact (Y2 _ Hr)|eapply (IH me ol); eauto; lia|eapply (IH me or); eauto; lia].
    - pose proof (room_kid W HW _ peq_sound _ _ _ _ _ _ _ _ false Hm) as R3. pose proof (room_kid W HW _ peq_sound _ _ _ _ _ _ _ _ true Hm) as R4. cbn [kid] in R3, R4.
      fold me in R3, R4. destruct (clean_kids _ _ _ _ _ _ _ Cm) as [Cl Cr].
      pose proof (swf_l _ _ _ _ _ _ _ _ _ Hm) as Hl. pose proof (swf_r _ _ _ _ _ _ _ _ _ Hm) as Hr.
      pose proof (swf_weaken _ _ _ _ (pre_nil _) Hl) as Hl0. pose proof (swf_weaken _ _ _ _ (pre_nil _) Hr) as Hr0.
      destruct (IO other ml ltac:(lia) Ho Hl0) as (x & EX & _ & X2 & _). destruct (IO other mr ltac:(lia) Ho Hr0) as (y & EY & _ & Y2 & _).
      rewrite EX, EY. cbn [bind]. eapply (clean_sides [] _ x y); [apply pre_nil|exact (X2 _ Hl)|exact (Y2 _ Hr)|eapply (IH other ml); eauto; lia|eapply (IH other mr); eauto; lia]. }
  destruct (compare W mp op) as [[[result reversed] common] child].
  destruct result; try (apply G). intros [= <-]. constructor.
Qed.
Lemma clean_Intersect me other t : swf [] me -> swf [] other -> clean (stored me) -> clean (stored other) ->
  Intersect W peq me other = Ok t -> clean (stored t).
Proof.
  intros Hm Ho. apply clean_intersect; auto. pose proof (room_max W HW _ peq_sound me). pose proof (room_max W HW _ peq_sound other). unfold fuelW. lia.
Qed.
End SetProv.
