(* ConcWeakProof.v - every execution of the code, with any number of overlapping
   modifying calls, is one of the specification of ConcWeak.v. *)
From Verif Require Export ConcWeak ConcSim ConcProof.
From Coq Require Import Arith.

Section Weak.
Context {V V' E WOp ROp BOp Out : Type}.
Notation call := (call E WOp ROp BOp).
Variable wfun : WOp -> V -> list V -> res (option V * Out).
Variable rfun : ROp -> option V -> list V -> res Out.
Variable bfun : BOp -> list V -> res V -> Prop.
Variable vzero : V.
Variable vnew : E -> V.
Variable vthaw : V -> V.
Variable wspec : WOp -> V' -> list V' -> option V' -> Out -> Prop.
Variable rspec : ROp -> option V' -> list V' -> reply Out -> Prop.
Variable bspec : BOp -> list V' -> option V' -> Prop.
Variable vzero' : V'.
Variable vnew' : E -> V' -> Prop.
Variable vthaw' : V' -> V' -> Prop.
Variable call_ok : call -> Prop.
Variable Rc Rs : V -> V' -> Prop.
Variable eqv : V' -> V' -> Prop.
Hypothesis M : meets wfun rfun bfun vzero vnew vthaw wspec rspec bspec vzero' vnew' vthaw' call_ok Rc Rs.
Hypothesis Heqv : forall v w w', Rc v w -> Rc v w' -> eqv w w'.
Notation mstate := (@mstate V E WOp ROp BOp Out).
Notation wstate := (@wstate V' E WOp ROp BOp Out).
Notation mstep := (mstep wfun rfun bfun vzero vnew vthaw call_ok).
Notation mexec := (mexec wfun rfun bfun vzero vnew vthaw call_ok).
Notation wstep := (wstep wspec rspec bspec vzero' vnew' vthaw' call_ok eqv).
Notation wexec := (wexec wspec rspec bspec vzero' vnew' vthaw' call_ok eqv).
Notation mphase := (@mphase V Out).
Notation wstatus := (@wstatus V' Out).

(* handle c still holds the root old, or the call knows of a store *)
Definition knows (cs : list (ptr * V)) (ws : list V') (c : nat) (old : ptr) (vo : V) (w0 : V') (mv : bool) : Prop :=
  Rc vo w0 /\ (forall p v, nth_error cs c = Some (p, v) -> p <> old -> mv = true) /\ (mv = false -> nth_error ws c = Some w0).
Definition wmatch1 (cs : list (ptr * V)) (ss : list V) (ws : list V') (x : option (call * mphase)) (y : option (call * wstatus)) : Prop :=
  match x with
  | None => y = None
  | Some (k, ph) =>
    call_ok k /\
    match ph with
    | MCalled => y = Some (k, Pending)
    | MLoaded old vo => exists c o a w0 mv, k = KWrite (Some c) o a /\ y = Some (k, Looked w0 mv) /\ knows cs ws c old vo w0 mv /\ (c < length cs)%nat
    | MMut old vo v vs => exists c o a w0 mv x x' out, k = KWrite (Some c) o a /\ y = Some (k, Ready w0 mv x' out) /\
        knows cs ws c old vo w0 mv /\ (c < length cs)%nat /\
        wfun o v vs = Ok (x, out) /\ match x, x' with None, None => True | Some w, Some w' => Rc w w' | _, _ => False end
    | MRead R => y = Some (k, Settled (reply_of R))
    | MBuild vs => exists b a, k = KBuild b a /\ arguments ss a = Some vs /\ y = Some (k, Pending)
    | MReply r => y = Some (k, Settled r)
    end
  end.
Definition wmatch (m : mstate) (w : wstate) : Prop :=
  Forall2 (fun x y => Rc (snd x) y) (m_cells m) (w_cells w) /\ Forall2 Rs (m_snaps m) (w_snaps w) /\
  forall i, wmatch1 (m_cells m) (m_snaps m) (w_cells w) (m_threads m i) (w_threads w i).

Lemma vals_F2 cs ws : Forall2 (fun x y => Rc (snd x) y) cs ws -> Forall2 Rc (vals cs) ws.
Proof. induction 1; cbn; constructor; auto. Qed.
(* growing lists of cells and snaps keep the match *)
Lemma wmatch1_grow cs ss ws ec es ew x y : length cs = length ws ->
  wmatch1 cs ss ws x y -> wmatch1 (cs ++ ec) (ss ++ es) (ws ++ ew) x y.
Proof.
  intros L. assert (KN : forall c old vo w0 mv, (c < length cs)%nat -> knows cs ws c old vo w0 mv -> knows (cs ++ ec) (ws ++ ew) c old vo w0 mv).
  { intros c old vo w0 mv Hc (A & B & C). split; auto. split.
    - intros p v Hn. rewrite nth_error_app1 in Hn by auto. eauto.
    - intros Hm. rewrite nth_error_app1 by lia. auto. }
  unfold wmatch1. destruct x as [[k ph]|]; auto. intros [Hk H]. split; auto. destruct ph; auto.
  - destruct H as (c & o & a & w0 & mv & A & B & C & D). exists c, o, a, w0, mv. rewrite app_length. split; auto. split; auto. split; auto. lia.
  - destruct H as (c & o & a & w0 & mv & x & x' & out & A & B & C & D & F). exists c, o, a, w0, mv, x, x', out. rewrite app_length.
    split; auto. split; auto. split; auto. split; [lia|auto].
  - destruct H as (b & a & A & B & C). exists b, a. split; auto. split; auto. apply arguments_app. auto.
Qed.

Lemma wmatch_put cs ss ws (mth : nat -> option (call * mphase)) (wth : nat -> option (call * wstatus)) i x y :
  (forall j, wmatch1 cs ss ws (mth j) (wth j)) -> wmatch1 cs ss ws x y -> forall j, wmatch1 cs ss ws (put mth i x j) (put wth i y j).
Proof. intros H Hx j. unfold put. destruct (Nat.eqb j i); auto. Qed.
Lemma wmatch_grow cs ss ws ec es ew (mth : nat -> option (call * mphase)) (wth : nat -> option (call * wstatus)) : length cs = length ws ->
  (forall j, wmatch1 cs ss ws (mth j) (wth j)) -> forall j, wmatch1 (cs ++ ec) (ss ++ es) (ws ++ ew) (mth j) (wth j).
Proof. intros L H j. apply wmatch1_grow; auto. Qed.
Lemma wmatch_growc cs ss ws ec ew (mth : nat -> option (call * mphase)) (wth : nat -> option (call * wstatus)) : length cs = length ws ->
  (forall j, wmatch1 cs ss ws (mth j) (wth j)) -> forall j, wmatch1 (cs ++ ec) ss (ws ++ ew) (mth j) (wth j).
Proof. intros L H j. rewrite <- (app_nil_r ss). apply wmatch1_grow; auto. Qed.
Lemma wmatch_grows cs ss ws es (mth : nat -> option (call * mphase)) (wth : nat -> option (call * wstatus)) : length cs = length ws ->
  (forall j, wmatch1 cs ss ws (mth j) (wth j)) -> forall j, wmatch1 cs (ss ++ es) ws (mth j) (wth j).
Proof. intros L H j. rewrite <- (app_nil_r cs), <- (app_nil_r ws). apply wmatch1_grow; auto. Qed.

Lemma weak_step m w l m' : wmatch m w -> mstep false m l m' ->
  exists w', (wstep w l w' \/ l = Tau /\ w' = w) /\ wmatch m' w'.
Proof.
  pose proof (meets_effect _ _ _ _ _ _ _ _ _ _ _ _ _ _ _ M) as ME. destruct M as [Mw Mz Mn Mt Mr Mb Mwr].
  intros (Hc & Hs & Ht) H. destruct w as [ws us wth]. cbn [w_cells w_snaps w_threads] in *.
  destruct H; cbn [m_cells m_snaps m_threads] in *; pose proof (Ht i) as Hi; rewrite H in Hi; cbn [wmatch1] in Hi;
    pose proof (F2_len _ _ _ Hc) as Lc; pose proof (F2_len _ _ _ Hs) as Ls; pose proof (vals_F2 _ _ Hc) as Hv.
  - (* invoke *) eexists. split; [left; apply w_invoke; auto|]. split; auto. split; auto. cbn. apply wmatch_put; auto. cbn. auto.
  - (* return *) destruct Hi as [_ Hi]. eexists. split; [left; eapply w_return; eauto|]. split; auto. split; auto. cbn. apply wmatch_put; auto. cbn. auto.
  - (* new *) destruct Hi as [Hk Hi]. destruct (Mn _ Hk) as (v' & N & R). eexists. split; [left; eapply w_perform; [exact Hi|reflexivity|eapply se_new; eauto]|].
    split; [apply F2_snoc; auto|]. split; auto. cbn. apply wmatch_put; [apply wmatch_growc; auto|]. cbn. rewrite Lc. auto.
  - (* freeze *) destruct Hi as [Hk Hi]. destruct (F2_nth _ _ _ _ _ Hc H0) as (v' & E' & R). cbn in R.
    eexists. split; [left; eapply w_perform; [exact Hi|reflexivity|eapply se_freeze; eauto]|].
    split; auto. split; [apply F2_snoc; auto|]. cbn. apply wmatch_put; [apply wmatch_grows; auto|]. cbn. rewrite Ls. auto.
  - (* freeze nil *) destruct Hi as [Hk Hi].
    eexists. split; [left; eapply w_perform; [exact Hi|reflexivity|eapply se_freeze_nil; eauto]|].
    split; auto. split; [apply F2_snoc; auto|]. cbn. apply wmatch_put; [apply wmatch_grows; auto|]. cbn. rewrite Ls. auto.
  - (* thaw *) destruct Hi as [Hk Hi]. destruct (F2_nth _ _ _ _ _ Hs H0) as (v' & E' & R). destruct (Mt _ _ _ Hk R) as (v1 & T1 & R1).
    eexists. split; [left; eapply w_perform; [exact Hi|reflexivity|eapply se_thaw; eauto]|].
    split; [apply F2_snoc; auto|]. split; auto. cbn. apply wmatch_put; [apply wmatch_growc; auto|]. cbn. rewrite Lc. auto.
  - (* read *) destruct Hi as [Hk Hi].
    destruct (ME _ _ _ _ _ _ _ ws us Hk (e_read wfun rfun bfun vzero vnew vthaw _ _ x r a v vs H0 H1) Hv Hs) as (cs1 & ss1 & He & _ & _).
    assert (X : cs1 = ws /\ ss1 = us) by (inversion He; auto). destruct X as [-> ->].
    eexists. split; [left; eapply w_perform; [exact Hi|reflexivity|exact He]|].
    split; auto. split; auto. cbn. apply wmatch_put; auto. cbn. auto.
  - (* read done *) destruct Hi as [Hk Hi]. eexists. split; [right; auto|]. split; auto. split; auto. cbn [m_threads m_cells m_snaps w_cells w_threads].
    intros j. unfold put. destruct (Nat.eqb_spec j i) as [->|]; auto. cbn. auto.
  - (* build *) destruct Hi as [Hk Hi]. eexists. split; [right; auto|]. split; auto. split; auto. cbn [m_threads m_cells m_snaps w_cells w_threads].
    intros j. unfold put. destruct (Nat.eqb_spec j i) as [->|]; auto. cbn. eauto 8.
  - (* build done *) destruct Hi as [Hk (b' & a' & Ek & Ea & Hi)]. injection Ek as <- <-. destruct (F2_args _ _ _ _ _ Hs Ea) as (vs' & Ea' & Rvs).
    destruct (Mb _ _ _ _ _ Hk (args_len _ _ _ Ea) Rvs H0) as [(w & w' & Ew & Bw & Rw)|[Ew _]]; [|discriminate]. injection Ew as <-.
    eexists. split; [left; eapply w_perform; [exact Hi|reflexivity|eapply se_build; eauto]|].
    split; auto. split; [apply F2_snoc; auto|]. cbn. apply wmatch_put; [apply wmatch_grows; auto|]. cbn. rewrite Ls. auto.
  - (* build panic *) destruct Hi as [Hk (b' & a' & Ek & Ea & Hi)]. injection Ek as <- <-. destruct (F2_args _ _ _ _ _ Hs Ea) as (vs' & Ea' & Rvs).
    destruct (Mb _ _ _ _ _ Hk (args_len _ _ _ Ea) Rvs H0) as [(w & w' & Ew & _)|[_ Bw]]; [discriminate|].
    eexists. split; [left; eapply w_perform; [exact Hi|reflexivity|eapply se_build_panic; eauto]|].
    split; auto. split; auto. cbn. apply wmatch_put; auto. cbn. auto.
  - (* build stuck *) destruct Hi as [Hk (b' & a' & Ek & Ea & Hi)]. injection Ek as <- <-. destruct (F2_args _ _ _ _ _ Hs Ea) as (vs' & Ea' & Rvs).
    destruct (Mb _ _ _ _ _ Hk (args_len _ _ _ Ea) Rvs H0) as [(w & w' & Ew & _)|[Ew _]]; discriminate.
  - (* write nil *) destruct Hi as [Hk Hi]. eexists. split; [left; eapply w_perform; [exact Hi|reflexivity|eapply se_write_nil; eauto]|].
    split; auto. split; auto. cbn. apply wmatch_put; auto. cbn. auto.
  - (* first look *) destruct Hi as [Hk Hi]. destruct (F2_nth _ _ _ _ _ Hc H0) as (v' & E' & R). cbn in R.
    eexists. split; [left; eapply w_look; eauto|]. split; auto. split; auto. cbn. apply wmatch_put; auto. cbn. split; auto.
    exists c, o, a, v', false. split; auto. split; auto. split; [|apply nth_error_Some; congruence]. split; auto. split; auto.
    intros p1 v1 Hn Hp. congruence.
  - (* second look *) destruct Hi as [Hk (c' & o' & a' & w0 & mv & Ek & Hi & KN & Lt)]. injection Ek as <- <- <-.
    destruct (F2_nth _ _ _ _ _ Hc H0) as (v' & E' & R). cbn in R. destruct (F2_args _ _ _ _ _ Hs H1) as (vs' & Ea' & Rvs).
    destruct (Mwr _ _ _ _ _ _ _ Hk (args_len _ _ _ H1) R Rvs) as (x & x' & out & Ew & Sw & Rx).
    eexists. split; [left; eapply w_compute; eauto|].
    { intros Hm. destruct KN as (_ & _ & C). specialize (C Hm). congruence. }
    split; auto. split; auto. cbn. apply wmatch_put; auto. cbn. split; auto. exists c, o, a, w0, mv, x, x', out. auto 10.
  - (* panic of the mutator *) destruct Hi as [Hk (c' & o' & a' & w0 & mv & x & x' & out & Ek & Hi & KN & Lt & Ew & Rx)]. injection Ek as <- <- <-. congruence.
  - destruct Hi as [Hk (c' & o' & a' & w0 & mv & x & x' & out & Ek & Hi & KN & Lt & Ew & Rx)]. injection Ek as <- <- <-. congruence.
  - (* nothing to store *) destruct Hi as [Hk (c' & o' & a' & w0 & mv & x & x' & out' & Ek & Hi & KN & Lt & Ew & Rx)]. injection Ek as <- <- <-.
    rewrite H0 in Ew. injection Ew as <- <-. destruct x'; [contradiction|]. eexists. split; [left; eapply w_nothing; eauto|].
    split; auto. split; auto. cbn. apply wmatch_put; auto. cbn. auto.
  - (* keep *) destruct Hi as [Hk (c' & o' & a' & w0 & mv & x & x' & out' & Ek & Hi & KN & Lt & Ew & Rx)]. injection Ek as <- <- <-.
    rewrite H0 in Ew. injection Ew as <- <-. destruct x' as [w'|]; [|contradiction]. subst v'. destruct KN as (R0 & _).
    eexists. split; [left; eapply w_keep; eauto|]. split; auto. split; auto. cbn. apply wmatch_put; auto. cbn. auto.
  - (* swap *) destruct Hi as [Hk (c' & o' & a' & w0 & mv & x & x' & out' & Ek & Hi & KN & Lt & Ew & Rx)]. injection Ek as <- <- <-.
    rewrite H0 in Ew. injection Ew as <- <-. destruct x' as [w'|]; [|contradiction]. subst v1. destruct KN as (R0 & _).
    destruct (F2_nth _ _ _ _ _ Hc H1) as (w1 & E1 & R1). cbn in R1.
    eexists. split; [left; eapply w_store; eauto|]. split; [apply F2_set; auto|]. split; auto. cbn [m_threads m_cells m_snaps w_cells w_threads].
    apply wmatch_put; [|cbn; auto]. intros j. specialize (Ht j). clear -Ht Lt Lc.
    assert (KN : forall c1 old1 vo1 w1 mv1, c1 <> c -> knows cs ws c1 old1 vo1 w1 mv1 -> knows (set_nth cs c (new, v')) (set_nth ws c w') c1 old1 vo1 w1 mv1).
    { intros c1 old1 vo1 w1 mv1 N (A & B & C). split; auto. rewrite !set_nth_other by auto. auto. }
    assert (KT : forall old1 vo1 w1 mv1, knows cs ws c old1 vo1 w1 mv1 -> knows (set_nth cs c (new, v')) (set_nth ws c w') c old1 vo1 w1 true).
    { intros old1 vo1 w1 mv1 (A & B & C). split; auto. split; auto. discriminate. }
    assert (LS : length (set_nth cs c (new, v')) = length cs) by (clear; revert c; induction cs as [|y l IH]; intros [|c]; cbn; auto).
    unfold wmatch1 in *. unfold note_store. destruct (th j) as [[k ph]|]; [|rewrite Ht; auto]. destruct Ht as [Hk Ht]. split; auto.
    destruct ph.
    + rewrite Ht. auto.
    + destruct Ht as (c1 & o1 & a1 & w1 & mv1 & -> & -> & K & L). cbn [writes]. destruct (Nat.eqb_spec c1 c) as [->|N].
      * exists c, o1, a1, w1, true. rewrite LS. eauto.
      * exists c1, o1, a1, w1, mv1. rewrite LS. eauto 8.
    + destruct Ht as (c1 & o1 & a1 & w1 & mv1 & x1 & x1' & out1 & -> & -> & K & L & Q). cbn [writes]. destruct (Nat.eqb_spec c1 c) as [->|N].
      * exists c, o1, a1, w1, true, x1, x1', out1. rewrite LS. split; auto. split; auto. split; eauto.
      * exists c1, o1, a1, w1, mv1, x1, x1', out1. rewrite LS. split; auto. 
    + rewrite Ht. auto.
    + destruct Ht as (b1 & a1 & A & B & ->). eauto 8.
    + rewrite Ht. auto.
  - (* conflict *) destruct Hi as [Hk (c' & o' & a' & w0 & mv & x & x' & out' & Ek & Hi & KN & Lt & Ew & Rx)]. injection Ek as <- <- <-.
    rewrite H0 in Ew. injection Ew as <- <-. destruct x' as [w'|]; [|contradiction]. destruct KN as (R0 & B & _).
    rewrite (B _ _ H1 H2) in Hi. eexists. split; [left; eapply w_panic; eauto|]. split; auto. split; auto. cbn. apply wmatch_put; auto. cbn. auto.
Qed.
Lemma weak_sim one ms m : mexec false one ms m -> exists als w, wexec als w /\ visible als = visible ms /\ wmatch m w.
Proof.
  induction 1 as [|ls l st st' Hx (als & w & Hw & Ev & Mt) Hs Ho].
  - exists [], (w_init vzero'). split; [constructor|]. split; auto. split; [constructor|]. split; [constructor; [apply (m_zero _ _ _ _ _ _ _ _ _ _ _ _ _ _ _ M)|constructor]|].
    intros i. reflexivity.
  - destruct (weak_step _ _ _ _ Mt Hs) as (w' & [Hs'|[-> ->]] & Mt').
    + exists (als ++ [l]), w'. split; [econstructor; eauto|]. split; auto. rewrite !visible_app, Ev. reflexivity.
    + exists als, w. split; auto. split; auto. rewrite visible_app, Ev. cbn. rewrite app_nil_r. reflexivity.
Qed.
End Weak.
