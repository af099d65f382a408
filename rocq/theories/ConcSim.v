(* ConcSim.v - if every effect on values is matched by the specification, then
   so is every execution of the atomic machine of Conc.v. *)
From Verif Require Export Conc.

Section Sim.
Context {V V' E WOp ROp BOp Out : Type}.
Notation call := (call E WOp ROp BOp).
Variable eff : list V -> list V -> call -> list V -> list V -> reply Out -> bool -> Prop.
Variable eff' : list V' -> list V' -> call -> list V' -> list V' -> reply Out -> bool -> Prop.
Variable vzero : V.
Variable vzero' : V'.
Variable call_ok : call -> Prop.
(* contents of handles, and immutable values *)
Variable Rc Rs : V -> V' -> Prop.
Hypothesis Rzero : Rs vzero vzero'.
Hypothesis Reff : forall cs ss k cs1 ss1 r b cs' ss', call_ok k -> eff cs ss k cs1 ss1 r b ->
  Forall2 Rc cs cs' -> Forall2 Rs ss ss' ->
  exists cs1' ss1', eff' cs' ss' k cs1' ss1' r b /\ Forall2 Rc cs1 cs1' /\ Forall2 Rs ss1 ss1'.

Definition smatch (a : @astate V E WOp ROp BOp Out) (a' : @astate V' E WOp ROp BOp Out) : Prop :=
  Forall2 Rc (a_cells a) (a_cells a') /\ Forall2 Rs (a_snaps a) (a_snaps a') /\ a_threads a' = a_threads a /\
  forall i k s, a_threads a i = Some (k, s) -> call_ok k.
Lemma smatch_init : smatch (a_init vzero) (a_init vzero').
Proof. split; [constructor|]. split; [constructor; auto|]. split; auto. discriminate. Qed.
Lemma smatch_step a a' l a1 : smatch a a' -> astep eff call_ok a l a1 -> exists a1', astep eff' call_ok a' l a1' /\ smatch a1 a1'.
Proof.
  intros (Mc & Ms & Mt & Mk) H. destruct a' as [cs' ss' th']. cbn [a_cells a_snaps a_threads] in *.
  destruct H; cbn [a_cells a_snaps a_threads] in *; subst th'.
  - eexists. split; [apply a_invoke; auto|]. split; auto. split; auto. split; auto. cbn. intros i0 k0 s. unfold put.
    destruct (Nat.eqb i0 i); eauto. intros [= <- _]. auto.
  - destruct (Reff _ _ _ _ _ _ _ _ _ (Mk _ _ _ H) H0 Mc Ms) as (cs1' & ss1' & He & Mc1 & Ms1).
    eexists. split; [eapply a_perform; eauto|]. split; auto. split; auto. split; auto. cbn. intros i0 k0 s. unfold put.
    destruct (Nat.eqb i0 i); [intros [= <- _]; eauto|]. destruct stored; eauto.
    unfold disturb. destruct k as [|[c|] o x| | | |]; eauto. destruct (th i0) as [[k1 [d1|r1]]|] eqn:Ei; try discriminate; [|intros [= <- _]; eauto].
    destruct (negb _ && _); intros [= <- _]; eauto.
  - eexists. split; [eapply a_conflict; eauto|]. split; auto. split; auto. split; auto. cbn. intros i0 k0 s. unfold put.
    destruct (Nat.eqb i0 i); eauto. intros [= <- _]. eauto.
  - eexists. split; [eapply a_return; eauto|]. split; auto. split; auto. split; auto. cbn. intros i0 k0 s. unfold put.
    destruct (Nat.eqb i0 i); eauto. discriminate.
Qed.
Theorem sim_aexec ls a : aexec eff vzero call_ok ls a -> exists a', aexec eff' vzero' call_ok ls a' /\ smatch a a'.
Proof.
  induction 1 as [|ls l st st' Hx (a' & Hx' & M) Hs]; [eexists; split; [constructor|apply smatch_init]|].
  destruct (smatch_step _ _ _ _ M Hs) as (a1 & Hs' & M'). exists a1. split; auto. econstructor; eauto.
Qed.
Theorem sim_aexec1 ls a : aexec1 eff vzero call_ok ls a -> exists a', aexec1 eff' vzero' call_ok ls a' /\ smatch a a'.
Proof.
  induction 1 as [|ls l st st' Hx (a' & Hx' & M) Hs Hu]; [eexists; split; [constructor|apply smatch_init]|].
  destruct (smatch_step _ _ _ _ M Hs) as (a1 & Hs' & M'). exists a1. split; auto. econstructor; eauto.
  destruct M' as (_ & _ & -> & _). auto.
Qed.
End Sim.

Section More.
Lemma F2_nth {X Y} (R : X -> Y -> Prop) l l' i x : Forall2 R l l' -> nth_error l i = Some x -> exists y, nth_error l' i = Some y /\ R x y.
Proof.
  intros H. revert i. induction H as [|a b l l' Hab _ IH]; intros [|i] E; try discriminate; cbn in *.
  - injection E as <-. eauto.
  - eauto.
Qed.
Lemma F2_set {X Y} (R : X -> Y -> Prop) l l' i x y : Forall2 R l l' -> R x y -> Forall2 R (set_nth l i x) (set_nth l' i y).
Proof. intros H Hx. revert i. induction H as [|a b l l' Hab Hl IH]; intros [|i]; cbn; constructor; auto. Qed.
Lemma F2_args {X Y} (R : X -> Y -> Prop) l l' a xs : Forall2 R l l' -> arguments l a = Some xs -> exists ys, arguments l' a = Some ys /\ Forall2 R xs ys.
Proof.
  intros H. revert xs. induction a as [|s a IH]; intros xs E; cbn in *; [injection E as <-; eauto|].
  destruct (nth_error l s) as [x|] eqn:N; [|discriminate]. destruct (F2_nth _ _ _ _ _ H N) as (y & -> & Rxy).
  destruct (arguments l a) as [xs'|]; [|discriminate]. injection E as <-. destruct (IH xs' eq_refl) as (ys & -> & Rs). eauto.
Qed.
Lemma F2_len {X Y} (R : X -> Y -> Prop) l l' : Forall2 R l l' -> length l = length l'.
Proof. induction 1; cbn; auto. Qed.
Lemma F2_snoc {X Y} (R : X -> Y -> Prop) l l' x y : Forall2 R l l' -> R x y -> Forall2 R (l ++ [x]) (l' ++ [y]).
Proof. intros H Hx. apply Forall2_app; auto. Qed.
Lemma args_len {X} (l : list X) a xs : arguments l a = Some xs -> length a = length xs.
Proof.
  revert xs. induction a as [|s a IH]; intros xs E; cbn in *; [injection E as <-; auto|].
  destruct (nth_error l s); [|discriminate]. destruct (arguments l a) as [ys|]; [|discriminate]. injection E as <-. cbn. auto.
Qed.
End More.

(* the effects on values against a specification, call by call *)
Section Effect.
Context {V V' E WOp ROp BOp Out : Type}.
Notation call := (call E WOp ROp BOp).
Variable wfun : WOp -> V -> list V -> res (option V * Out).
Variable rfun : ROp -> option V -> list V -> res Out.
Variable bfun : BOp -> list V -> res V -> Prop.
Variable vzero : V.
Variable vnew : E -> V.
Variable vthaw : V -> V.
Variable wspec : WOp -> V' -> list V' -> option V' -> Out -> Prop.
Variable rspec : ROp -> option V' -> list V' -> reply Out -> Prop.
Variable bspec : BOp -> list V' -> option V' -> Prop.
Variable vzero' : V'.
Variable vnew' : E -> V' -> Prop.
Variable vthaw' : V' -> V' -> Prop.
Variable call_ok : call -> Prop.
Variable Rc Rs : V -> V' -> Prop.
Definition Ro (x : option V) (y : option V') : Prop := match x, y with None, None => True | Some v, Some v' => Rs v v' | _, _ => False end.
Record meets : Prop := {
  m_weak : forall v v', Rc v v' -> Rs v v';
  m_zero : Rs vzero vzero';
  m_new : forall e, call_ok (KNew e) -> exists v', vnew' e v' /\ Rc (vnew e) v';
  m_thaw : forall v v' s, call_ok (KThaw s) -> Rs v v' -> exists v1, vthaw' v' v1 /\ Rc (vthaw v) v1;
  m_read : forall x r a v v' vs vs', call_ok (KRead x r a) -> length a = length vs -> (v = None -> x = Cell None) -> Ro v v' -> Forall2 Rs vs vs' ->
    rspec r v' vs' (reply_of (rfun r v vs));
  m_build : forall b a vs vs' R, call_ok (KBuild b a) -> length a = length vs -> Forall2 Rs vs vs' -> bfun b vs R ->
    (exists v v', R = Ok v /\ bspec b vs' (Some v') /\ Rs v v') \/ (R = Panic /\ bspec b vs' None);
  m_write : forall c o a v v' vs vs', call_ok (KWrite (Some c) o a) -> length a = length vs -> Rc v v' -> Forall2 Rs vs vs' ->
    exists x x' out, wfun o v vs = Ok (x, out) /\ wspec o v' vs' x' out /\
    match x, x' with None, None => True | Some w, Some w' => Rc w w' | _, _ => False end }.
Hypothesis M : meets.
Lemma meets_effect cs ss k cs1 ss1 r b cs' ss' : call_ok k -> effect wfun rfun bfun vzero vnew vthaw cs ss k cs1 ss1 r b ->
  Forall2 Rc cs cs' -> Forall2 Rs ss ss' ->
  exists cs1' ss1', spec_effect wspec rspec bspec vzero' vnew' vthaw' cs' ss' k cs1' ss1' r b /\ Forall2 Rc cs1 cs1' /\ Forall2 Rs ss1 ss1'.
Proof.
  destruct M as [Mw Mz Mn Mt Mr Mb Mwr]. intros Hk He Hc Hs. pose proof (F2_len _ _ _ Hc) as Lc. pose proof (F2_len _ _ _ Hs) as Ls.
  destruct He; rewrite ?Lc, ?Ls.
  - destruct (Mn _ Hk) as (v' & N & R). eexists _, _. split; [apply se_new; eauto|]. split; auto. apply F2_snoc; auto.
  - destruct (F2_nth _ _ _ _ _ Hc H) as (v' & E' & R). eexists _, _. split; [apply se_freeze; eauto|]. split; auto. apply F2_snoc; auto.
  - eexists _, _. split; [apply se_freeze_nil|]. split; auto. apply F2_snoc; auto.
  - destruct (F2_nth _ _ _ _ _ Hs H) as (v' & E' & R). destruct (Mt _ _ _ Hk R) as (v1 & T1 & R1).
    eexists _, _. split; [eapply se_thaw; eauto|]. split; auto. apply F2_snoc; auto.
  - destruct (F2_args _ _ _ _ _ Hs H0) as (vs' & Ea & Rvs).
    assert (X : exists v', receiver cs' ss' x = Some v' /\ Ro v v' /\ (v = None -> x = Cell None)).
    { destruct x as [[c|]|s]; cbn [receiver] in *.
      - destruct (nth_error cs c) as [w|] eqn:N; [|discriminate]. injection H as <-. destruct (F2_nth _ _ _ _ _ Hc N) as (w' & -> & R). eexists. split; [reflexivity|]. cbn. split; auto. discriminate.
      - injection H as <-. eexists. split; [reflexivity|]. split; [exact I|auto].
      - destruct (nth_error ss s) as [w|] eqn:N; [|discriminate]. injection H as <-. destruct (F2_nth _ _ _ _ _ Hs N) as (w' & -> & R). eexists. split; [reflexivity|]. cbn. split; auto. discriminate. }
    destruct X as (v' & Ev & Rv & Nv). eexists _, _. split; [eapply se_read; eauto using args_len|]. auto.
  - destruct (F2_args _ _ _ _ _ Hs H) as (vs' & Ea & Rvs). destruct (Mb _ _ _ _ _ Hk (args_len _ _ _ H) Rvs H0) as [(w & w' & Ew & Bw & Rw)|[Ew _]]; [|discriminate]. injection Ew as <-.
    eexists _, _. split; [eapply se_build; eauto|]. split; auto. apply F2_snoc; auto.
  - destruct (F2_args _ _ _ _ _ Hs H) as (vs' & Ea & Rvs). destruct (Mb _ _ _ _ _ Hk (args_len _ _ _ H) Rvs H0) as [(w & w' & Ew & _)|[_ Bw]]; [discriminate|].
    eexists _, _. split; [eapply se_build_panic; eauto|]. auto.
  - destruct (F2_args _ _ _ _ _ Hs H) as (vs' & Ea & Rvs). destruct (Mb _ _ _ _ _ Hk (args_len _ _ _ H) Rvs H0) as [(w & w' & Ew & _)|[Ew _]]; discriminate.
  - eexists _, _. split; [apply se_write_nil|]. auto.
  - destruct (F2_nth _ _ _ _ _ Hc H) as (v' & E' & R). destruct (F2_args _ _ _ _ _ Hs H0) as (vs' & Ea & Rvs).
    destruct (Mwr _ _ _ _ _ _ _ Hk (args_len _ _ _ H0) R Rvs) as (x & x' & out' & Ew & Sw & Rx). rewrite H1 in Ew. injection Ew as <- <-. destruct x'; [contradiction|].
    eexists _, _. split; [eapply se_write_same; eauto|]. auto.
  - destruct (F2_nth _ _ _ _ _ Hc H) as (w0 & E' & R). destruct (F2_args _ _ _ _ _ Hs H0) as (vs' & Ea & Rvs).
    destruct (Mwr _ _ _ _ _ _ _ Hk (args_len _ _ _ H0) R Rvs) as (x & x' & out' & Ew & Sw & Rx). rewrite H1 in Ew. injection Ew as <- <-. destruct x'; [|contradiction].
    eexists _, _. split; [eapply se_write; eauto|]. split; auto. apply F2_set; auto.
  - destruct (F2_nth _ _ _ _ _ Hc H) as (w0 & E' & R). destruct (F2_args _ _ _ _ _ Hs H0) as (vs' & Ea & Rvs).
    destruct (Mwr _ _ _ _ _ _ _ Hk (args_len _ _ _ H0) R Rvs) as (x & x' & out' & Ew & _). congruence.
  - destruct (F2_nth _ _ _ _ _ Hc H) as (w0 & E' & R). destruct (F2_args _ _ _ _ _ Hs H0) as (vs' & Ea & Rvs).
    destruct (Mwr _ _ _ _ _ _ _ Hk (args_len _ _ _ H0) R Rvs) as (x & x' & out' & Ew & _). congruence.
Qed.
End Effect.
