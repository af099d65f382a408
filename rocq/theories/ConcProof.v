(* ConcProof.v - every execution of the concurrent machine of Conc.v looks, from
   the outside, like an execution of its atomic machine. *)
From Verif Require Export Conc HeapLogic.
From Coq Require Import Arith ZifyBool ZifyNat ZifyN.

(* ---------------- lists and functions ---------------- *)
Section Basics.
Context {X Y : Type}.
Lemma put_same (f : nat -> X) i x : put f i x i = x.
Proof. unfold put. rewrite Nat.eqb_refl. reflexivity. Qed.
Lemma put_other (f : nat -> X) i j x : j <> i -> put f i x j = f j.
Proof. unfold put. destruct (Nat.eqb_spec j i); congruence. Qed.
Lemma set_nth_same (l : list X) i x : (i < length l)%nat -> nth_error (set_nth l i x) i = Some x.
Proof. revert i. induction l; intros i H; cbn in H; [lia|]. destruct i; cbn; auto. apply IHl. lia. Qed.
Lemma set_nth_other (l : list X) i j x : i <> j -> nth_error (set_nth l i x) j = nth_error l j.
Proof. revert i j. induction l; intros i j H; destruct i, j; cbn; auto; congruence. Qed.
Lemma set_nth_id (l : list X) i x : nth_error l i = Some x -> set_nth l i x = l.
Proof. revert i. induction l; intros i H; destruct i; cbn in *; try discriminate; [congruence|]. f_equal. auto. Qed.
Lemma nth_app_some (l m : list X) i x : nth_error l i = Some x -> nth_error (l ++ m) i = Some x.
Proof. intros H. rewrite nth_error_app1; auto. apply nth_error_Some. congruence. Qed.
Lemma Forall2_nth (P : X -> Y -> Prop) l m i x : Forall2 P l m -> nth_error l i = Some x -> exists y, nth_error m i = Some y /\ P x y.
Proof.
  intros H. revert i. induction H; intros i E; destruct i; cbn in *; try discriminate.
  - injection E as <-. eauto.
  - eauto.
Qed.
Lemma Forall2_nth' (P : X -> Y -> Prop) l m i y : Forall2 P l m -> nth_error m i = Some y -> exists x, nth_error l i = Some x /\ P x y.
Proof.
  intros H. revert i. induction H; intros i E; destruct i; cbn in *; try discriminate.
  - injection E as <-. eauto.
  - eauto.
Qed.
Lemma Forall2_set_nth (P : X -> Y -> Prop) l m i x y : Forall2 P l m -> P x y -> Forall2 P (set_nth l i x) (set_nth m i y).
Proof. intros H HP. revert i. induction H; intros i; destruct i; cbn; constructor; auto. Qed.
Lemma Forall2_mono (P Q : X -> Y -> Prop) l m : (forall x y, P x y -> Q x y) -> Forall2 P l m -> Forall2 Q l m.
Proof. intros H K. induction K; constructor; auto. Qed.
Lemma arguments_app (ss l : list X) a xs : arguments ss a = Some xs -> arguments (ss ++ l) a = Some xs.
Proof.
  revert xs. induction a as [|s a IH]; intros xs H; cbn [arguments] in *; auto.
  destruct (nth_error ss s) eqn:E; [|discriminate]. rewrite (nth_app_some _ _ _ _ E).
  destruct (arguments ss a); [|discriminate]. rewrite (IH _ eq_refl). exact H.
Qed.
Lemma arguments_rel (P : X -> Y -> Prop) ss vs a xs : Forall2 P ss vs -> arguments ss a = Some xs ->
  exists ys, arguments vs a = Some ys /\ Forall2 P xs ys.
Proof.
  intros H. revert xs. induction a as [|s a IH]; intros xs E; cbn [arguments] in *.
  - injection E as <-. eauto.
  - destruct (nth_error ss s) eqn:Es; [|discriminate]. destruct (arguments ss a); [|discriminate]. injection E as <-.
    destruct (Forall2_nth _ _ _ _ _ H Es) as (y & -> & Hy). destruct (IH _ eq_refl) as (ys & -> & Hys). eauto.
Qed.
Lemma receiver_rel (P : X -> Y -> Prop) cs ss vc vs x v : Forall2 P cs vc -> Forall2 P ss vs -> receiver cs ss x = Some v ->
  exists w, receiver vc vs x = Some w /\ match v, w with Some a, Some b => P a b | None, None => True | _, _ => False end.
Proof.
  intros H K E. destruct x as [[c|]|s]; cbn [receiver] in *.
  - destruct (nth_error cs c) eqn:Ec; [|discriminate]. injection E as <-. destruct (Forall2_nth _ _ _ _ _ H Ec) as (y & -> & Hy).
    cbn. eauto.
  - injection E as <-. eexists. split; [reflexivity|exact I].
  - destruct (nth_error ss s) eqn:Ec; [|discriminate]. injection E as <-. destruct (Forall2_nth _ _ _ _ _ K Ec) as (y & -> & Hy).
    cbn. eauto.
Qed.
End Basics.
Lemma Forall2_len {X Y} (P : X -> Y -> Prop) l m : Forall2 P l m -> length l = length m.
Proof. induction 1; cbn; congruence. Qed.
Lemma visible_app {C Out} (a b : list (label C Out)) : visible (a ++ b) = visible a ++ visible b.
Proof. induction a as [|x a IH]; cbn; auto. destruct x; cbn; rewrite ?IH; auto. Qed.

(* the calls in progress after a list of labels *)
Fixpoint pend_after {C Out} (pending : nat -> option C) (ls : list (label C Out)) : nat -> option C :=
  match ls with
  | [] => pending
  | Inv i k :: ls' => pend_after (put pending i (Some k)) ls'
  | Ret i r :: ls' => pend_after (put pending i None) ls'
  | Tau :: ls' => pend_after pending ls'
  end.
Lemma pend_after_app {C Out} (ls ls' : list (label C Out)) : forall f, pend_after f (ls ++ ls') = pend_after (pend_after f ls) ls'.
Proof. induction ls as [|[i k|i r|] ls IH]; intros f; cbn; auto. Qed.
Lemma completed_ext {C Out} (ls : list (label C Out)) : forall f g, (forall i, f i = g i) -> completed f ls = completed g ls.
Proof.
  induction ls as [|[i k|i r|] ls IH]; intros f g E; cbn; auto.
  - apply IH. intros j. unfold put. destruct (j =? i)%nat; auto.
  - rewrite E. destruct (g i); auto. f_equal. apply IH. intros j. unfold put. destruct (j =? i)%nat; auto.
Qed.
Lemma put_id {X} (f : nat -> X) i x : f i = x -> forall j, put f i x j = f j.
Proof. intros E j. unfold put. destruct (Nat.eqb_spec j i); congruence. Qed.
Lemma pend_after_ext {C Out} (ls : list (label C Out)) : forall (g g' : nat -> option C), (forall j, g j = g' j) -> forall j, pend_after g ls j = pend_after g' ls j.
Proof. induction ls as [|[i k|i r|] ls IH]; intros g g' E j; cbn; auto; apply IH; intros j'; unfold put; destruct (j' =? i)%nat; auto. Qed.
Lemma completed_app {C Out} (ls ls' : list (label C Out)) : forall f, completed f (ls ++ ls') = completed f ls ++ completed (pend_after f ls) ls'.
Proof.
  induction ls as [|[i k|i r|] ls IH]; intros f; cbn; auto. destruct (f i) eqn:E; rewrite IH; cbn; auto.
  f_equal. apply completed_ext. intros j. apply pend_after_ext. intros j'. symmetry. apply put_id. auto.
Qed.
Lemma completed_visible {C Out} (ls : list (label C Out)) : forall f, completed f (visible ls) = completed f ls.
Proof. induction ls as [|[i k|i r|] ls IH]; intros f; cbn; auto. destruct (f i); rewrite ?IH; auto. Qed.

(* ---------------- the logic, extended ---------------- *)
Section More.
Context {T : Type}.
Notation hp := (heap T).
Notation aset := (nat -> Prop).
Definition both (F O : aset) : aset := fun i => F i \/ O i.
Definition mono {A} (Q : res A -> aset -> hp -> Prop) : Prop := forall r S S' h, Q r S h -> incl_s S S' -> Q r S' h.
Definition good {A} (Q : res A -> aset -> hp -> Prop) : Prop := stable Q /\ mono Q.
Lemma rely_incl (S S' : aset) (h h' : hp) : incl_s S S' -> rely S' h h' -> rely S h h'.
Proof. intros I [L K]. split; auto. intros i Hi. apply K. auto. Qed.
Lemma wpi_weaken {A} (p : prog T A) : forall S S' h Q, mono Q -> incl_s S S' -> wpi S h p Q -> wpi S' h p Q.
Proof.
  induction p; intros S S' h0 Q M I H0; cbn [wpi] in *.
  - eapply M; eauto.
  - intros h1 R1. eapply H; [exact M| |apply H0; eapply rely_incl; eauto]. intros i [->|Hi]; [left; reflexivity|right; auto].
  - destruct H0 as (Hl & n & E & H0). split; auto. exists n. split; auto. eapply H; eauto.
  - destruct H0 as (Hl & H0). split; auto. intros h1 R1. eapply IHp; [exact M|exact I|]. apply H0. eapply rely_incl; eauto.
Qed.
(* ownp, with what is known of the nodes it loads *)
Fixpoint owng {A} (G : nat -> hnode T -> Prop) (O : aset) (p : prog T A) (Q : A -> aset -> Prop) : Prop :=
  match p with
  | Done (Ok a) => Q a O
  | Done _ => True
  | Alloc n k => forall l, owng G (plus1 l O) (k l) Q
  | Load l k => forall n, G l n -> owng G O (k n) Q
  | Store l n k => O l /\ owng G O k Q
  end.
Lemma ownp_owng {A} G (p : prog T A) : forall O Q, ownp O p Q -> owng G O p Q.
Proof. induction p; intros O Q H0; cbn in *; auto. destruct H0; auto. Qed.
Lemma owng_conseq {A} G (p : prog T A) : forall O (Q R : A -> aset -> Prop),
  owng G O p Q -> (forall a O', incl_s O O' -> Q a O' -> R a O') -> owng G O p R.
Proof.
  induction p; intros O Q R H0 HR; cbn in *.
  - destruct r; auto. apply HR; auto. apply incl_refl.
  - intros l. eapply H; [apply H0|]. intros a O' I. apply HR. eapply incl_trans; [apply incl_plus1|exact I].
  - intros m Hm. eapply H; [apply H0; exact Hm|]. auto.
  - destruct H0. split; eauto.
Qed.
Lemma owng_bind {A B} G (p : prog T A) (f : A -> prog T B) : forall O Q R,
  owng G O p Q -> (forall a O', incl_s O O' -> Q a O' -> owng G O' (f a) R) -> owng G O (pbind p f) R.
Proof.
  induction p; intros O Q R H0 HR; cbn in *.
  - destruct r; cbn; auto. apply HR; auto. apply incl_refl.
  - intros l. eapply H; [apply H0|]. intros a O' I. apply HR. eapply incl_trans; [apply incl_plus1|exact I].
  - intros m Hm. eapply H; [apply H0; exact Hm|]. auto.
  - destruct H0. split; eauto.
Qed.
(* a thread's own step *)
Lemma pstep_own {A} (h : hp) (m : prog T A) h' m' F O Q : pstep h m h' m' -> dom F h -> dom O h ->
  owns O m -> mono Q -> wpi (both F O) h m Q ->
  exists O', incl_s O O' /\ dom O' h' /\ (owns O' m' /\ forall (G : nat -> hnode T -> Prop) P, (forall l n, nth_error h l = Some n -> G l n) -> owng G O m P -> owng G O' m' P) /\ wpi (both F O') h' m' Q /\
    (forall i, O' i -> O i \/ (length h <= i)%nat) /\
    (length h <= length h')%nat /\ forall i, (i < length h)%nat -> ~ O i -> nth_error h' i = nth_error h i.
Proof.
  intros St DF DO Ow M Wp. destruct St; cbn [owns wpi] in *.
  - exists (plus1 (length h) O). split; [apply incl_plus1|]. split; [apply dom_alloc; auto|]. split; [split; [apply Ow|intros G P _ HP; apply HP]|]. split.
    + eapply wpi_weaken; [exact M| |apply Wp; apply rely_refl]. intros i [->|[Hi|Hi]]; [right; left; reflexivity|left; auto|right; right; auto].
    + split; [intros i [->|Hi]; auto|]. rewrite app_length. split; [lia|]. intros i Hi _. apply nth_error_app1. auto.
  - destruct Wp as (Hl & n0 & E & Wp). rewrite H in E. injection E as <-. exists O. split; [apply incl_refl|]. split; [exact DO|]. split; [split; [apply Ow|intros G P HG HP; apply HP; auto]|]. repeat split; auto.
  - destruct Wp as (Hl & n0 & E & Wp). congruence.
  - destruct Ow as [Ol Ow]. destruct Wp as (Hl & Wp). exists O. split; [apply incl_refl|]. split; [apply dom_upd; auto|]. split; [split; [exact Ow|intros G P _ [_ HP]; exact HP]|].
    split; [apply Wp; apply rely_refl|]. split; auto. rewrite upd_length. split; auto. intros i Hi Ni. apply upd_other. intros ->. auto.
Qed.
End More.

(* ---------------- a machine in between: values, but the steps of the concrete one ---------------- *)
Section Mid.
Context {V E WOp ROp BOp Out : Type}.
Notation call := (call E WOp ROp BOp).
Variable wfun : WOp -> V -> list V -> res (option V * Out).
Variable rfun : ROp -> option V -> list V -> res Out.
Variable bfun : BOp -> list V -> res V -> Prop.
Variable vzero : V.
Variable vnew : E -> V.
Variable vthaw : V -> V.
Variable call_ok : call -> Prop.

Inductive mphase :=
| MCalled
| MLoaded (old : ptr) (vo : V)
| MMut (old : ptr) (vo : V) (v0 : V) (vs : list V)
| MRead (r : res Out)
| MBuild (vs : list V)
| MReply (r : reply Out).
Record mstate := mkM { m_cells : list (ptr * V); m_snaps : list V; m_threads : nat -> option (call * mphase) }.
Definition m_init : mstate := mkM [] [vzero] (fun _ => None).
Definition vals (cs : list (ptr * V)) : list V := map snd cs.

Inductive mstep (strict : bool) : mstate -> label call Out -> mstate -> Prop :=
| m_invoke cs ss th i k : th i = None -> call_ok k ->
    mstep strict (mkM cs ss th) (Inv i k) (mkM cs ss (put th i (Some (k, MCalled))))
| m_return cs ss th i k r : th i = Some (k, MReply r) ->
    mstep strict (mkM cs ss th) (Ret i r) (mkM cs ss (put th i None))
| m_new cs ss th i e p : th i = Some (KNew e, MCalled) ->
    mstep strict (mkM cs ss th) Tau
      (mkM (cs ++ [(p, vnew e)]) ss (put th i (Some (KNew e, MReply (RHandle (length cs))))))
| m_freeze cs ss th i c p v : th i = Some (KFreeze (Some c), MCalled) -> nth_error cs c = Some (p, v) ->
    mstep strict (mkM cs ss th) Tau
      (mkM cs (ss ++ [v]) (put th i (Some (KFreeze (Some c), MReply (RSnap (length ss))))))
| m_freeze_nil cs ss th i : th i = Some (KFreeze None, MCalled) ->
    mstep strict (mkM cs ss th) Tau
      (mkM cs (ss ++ [vzero]) (put th i (Some (KFreeze None, MReply (RSnap (length ss))))))
| m_thaw cs ss th i s p v : th i = Some (KThaw s, MCalled) -> nth_error ss s = Some v ->
    mstep strict (mkM cs ss th) Tau
      (mkM (cs ++ [(p, vthaw v)]) ss (put th i (Some (KThaw s, MReply (RHandle (length cs))))))
| m_read cs ss th i x r a v vs : th i = Some (KRead x r a, MCalled) ->
    receiver (vals cs) ss x = Some v -> arguments ss a = Some vs ->
    mstep strict (mkM cs ss th) Tau (mkM cs ss (put th i (Some (KRead x r a, MRead (rfun r v vs)))))
| m_read_done cs ss th i k r : th i = Some (k, MRead r) ->
    mstep strict (mkM cs ss th) Tau (mkM cs ss (put th i (Some (k, MReply (reply_of r)))))
| m_build cs ss th i b a vs : th i = Some (KBuild b a, MCalled) -> arguments ss a = Some vs ->
    mstep strict (mkM cs ss th) Tau (mkM cs ss (put th i (Some (KBuild b a, MBuild vs))))
| m_build_done cs ss th i b a vs v : th i = Some (KBuild b a, MBuild vs) -> bfun b vs (Ok v) ->
    mstep strict (mkM cs ss th) Tau
      (mkM cs (ss ++ [v]) (put th i (Some (KBuild b a, MReply (RSnap (length ss))))))
| m_build_panic cs ss th i b a vs : th i = Some (KBuild b a, MBuild vs) -> bfun b vs Panic ->
    mstep strict (mkM cs ss th) Tau (mkM cs ss (put th i (Some (KBuild b a, MReply RPanic))))
| m_build_stuck cs ss th i b a vs : th i = Some (KBuild b a, MBuild vs) -> bfun b vs OutOfFuel ->
    mstep strict (mkM cs ss th) Tau (mkM cs ss (put th i (Some (KBuild b a, MReply RStuck))))
| m_write_nil cs ss th i o a : th i = Some (KWrite None o a, MCalled) ->
    mstep strict (mkM cs ss th) Tau (mkM cs ss (put th i (Some (KWrite None o a, MReply RPanic))))
| m_old cs ss th i c o a p v : th i = Some (KWrite (Some c) o a, MCalled) -> nth_error cs c = Some (p, v) ->
    mstep strict (mkM cs ss th) Tau (mkM cs ss (put th i (Some (KWrite (Some c) o a, MLoaded p v))))
| m_mutator cs ss th i c o a old vo p v vs : th i = Some (KWrite (Some c) o a, MLoaded old vo) ->
    nth_error cs c = Some (p, v) -> arguments ss a = Some vs ->
    mstep strict (mkM cs ss th) Tau (mkM cs ss (put th i (Some (KWrite (Some c) o a, MMut old vo v vs))))
| m_write_panic cs ss th i c o a old vo v vs : th i = Some (KWrite (Some c) o a, MMut old vo v vs) -> wfun o v vs = Panic ->
    mstep strict (mkM cs ss th) Tau (mkM cs ss (put th i (Some (KWrite (Some c) o a, MReply RPanic))))
| m_write_stuck cs ss th i c o a old vo v vs : th i = Some (KWrite (Some c) o a, MMut old vo v vs) -> wfun o v vs = OutOfFuel ->
    mstep strict (mkM cs ss th) Tau (mkM cs ss (put th i (Some (KWrite (Some c) o a, MReply RStuck))))
| m_keep_fail cs ss th i c o a old vo v vs out : th i = Some (KWrite (Some c) o a, MMut old vo v vs) -> wfun o v vs = Ok (None, out) ->
    mstep strict (mkM cs ss th) Tau (mkM cs ss (put th i (Some (KWrite (Some c) o a, MReply (ROut out)))))
| m_keep cs ss th i c o a old vo v vs v' out : th i = Some (KWrite (Some c) o a, MMut old vo v vs) -> wfun o v vs = Ok (Some v', out) ->
    v' = vo -> (strict = true -> v' = v) ->
    mstep strict (mkM cs ss th) Tau (mkM cs ss (put th i (Some (KWrite (Some c) o a, MReply (ROut out)))))
| m_swap cs ss th i c o a old vo v vs v' out new v1 : th i = Some (KWrite (Some c) o a, MMut old vo v vs) -> wfun o v vs = Ok (Some v', out) ->
    nth_error cs c = Some (old, v1) -> v1 = vo -> (strict = true -> v1 = v) ->
    mstep strict (mkM cs ss th) Tau
      (mkM (set_nth cs c (new, v')) ss (put th i (Some (KWrite (Some c) o a, MReply (ROut out)))))
| m_conflict cs ss th i c o a old vo v vs v' out p v1 : th i = Some (KWrite (Some c) o a, MMut old vo v vs) -> wfun o v vs = Ok (Some v', out) ->
    nth_error cs c = Some (p, v1) -> p <> old ->
    mstep strict (mkM cs ss th) Tau (mkM cs ss (put th i (Some (KWrite (Some c) o a, MReply RPanic)))).

Definition m_one (st : mstate) : Prop :=
  forall i j c o a o' a' p p', m_threads st i = Some (KWrite (Some c) o a, p) -> m_threads st j = Some (KWrite (Some c) o' a', p') -> i = j.
Inductive mexec (strict one : bool) : list (label call Out) -> mstate -> Prop :=
| me_init : mexec strict one [] m_init
| me_step ls l st st' : mexec strict one ls st -> mstep strict st l st' -> (one = true -> m_one st') -> mexec strict one (ls ++ [l]) st'.

(* reads of immutable values are determined by the values *)
Notation none_pending := (fun _ : nat => @None call).
Definition read_spec (m : mstate) (s : nat) (q : ROp) (a : list nat) (r : reply Out) : Prop :=
  exists v vs, nth_error (m_snaps m) s = Some v /\ arguments (m_snaps m) a = Some vs /\ r = reply_of (rfun q (Some v) vs).
Record rinv (ms : list (label call Out)) (m : mstate) : Prop := {
  ri_pend : forall i, pend_after none_pending ms i = option_map fst (m_threads m i);
  ri_done : forall s q a r, In (KRead (Snap s) q a, r) (completed none_pending ms) -> read_spec m s q a r;
  ri_run : forall i s q a R, m_threads m i = Some (KRead (Snap s) q a, MRead R) -> read_spec m s q a (reply_of R);
  ri_rep : forall i s q a r, m_threads m i = Some (KRead (Snap s) q a, MReply r) -> read_spec m s q a r }.
Lemma mstep_snaps rr m l m' : mstep rr m l m' -> exists ext, m_snaps m' = m_snaps m ++ ext.
Proof. intros H. destruct H; cbn; try (exists []; rewrite app_nil_r; reflexivity); eexists; reflexivity. Qed.
Lemma read_spec_ext m m' s q a r ext : read_spec m s q a r -> m_snaps m' = m_snaps m ++ ext -> read_spec m' s q a r.
Proof. intros (v & vs & E1 & E2 & E3) Es. exists v, vs. rewrite Es. split; [apply nth_app_some; auto|]. split; [apply arguments_app; auto|auto]. Qed.
Lemma rinv_all rr one ms m : mexec rr one ms m -> rinv ms m.
Proof.
  induction 1 as [|ls l st st' Hx [P D R1 R2] Hs Ho].
  { constructor; try discriminate; auto. intros s q a r []. }
  destruct (mstep_snaps _ _ _ _ Hs) as [ext Es].
  assert (UP : forall s q a r, read_spec st s q a r -> read_spec st' s q a r) by (intros; eapply read_spec_ext; eauto).
  constructor.
  - intros i0. rewrite pend_after_app. specialize (P i0).
    destruct Hs; cbn [pend_after m_threads] in *; destruct (Nat.eq_dec i0 i) as [->|N];
      rewrite ?put_same, ?put_other by auto; cbn; auto; try (rewrite P, H; reflexivity).
  - intros s q a r Hi. rewrite completed_app in Hi. apply in_app_or in Hi. destruct Hi as [Hi|Hi]; [apply UP; auto|].
    destruct Hs; cbn [completed] in Hi; try contradiction.
    pose proof (P i) as Pi. cbn [m_threads] in Pi. rewrite H in Pi. cbn in Pi. rewrite Pi in Hi. destruct Hi as [Hi|[]]. injection Hi as -> ->.
    apply UP. eapply R2. cbn. eauto.
  - intros i0 s q a R Hi. destruct Hs; cbn [m_threads] in Hi; destruct (Nat.eq_dec i0 i) as [->|N];
      try rewrite put_same in Hi; try rewrite put_other in Hi by auto; try discriminate; try (apply UP; eapply R1; cbn; eauto; fail).
    injection Hi as -> -> -> <-. cbn [receiver] in H0. destruct (nth_error ss s) as [w|] eqn:Ew; [|discriminate]. injection H0 as <-.
    exists w, vs. auto.
  - intros i0 s q a r Hi. destruct Hs; cbn [m_threads] in Hi; destruct (Nat.eq_dec i0 i) as [->|N];
      try rewrite put_same in Hi; try rewrite put_other in Hi by auto; try discriminate; try (apply UP; eapply R2; cbn; eauto; fail).
    injection Hi as -> <-. apply UP. eapply R1. cbn. eauto.
Qed.

(* ---------------- from the machine in between to the atomic one ---------------- *)
Notation astate := (@astate V E WOp ROp BOp Out).
Notation astep := (@astep V E WOp ROp BOp Out (effect wfun rfun bfun vzero vnew vthaw) call_ok).
Notation status := (@status Out).
Definition undisturbed (a : astate) : Prop := forall i c o x, a_threads a i <> Some (KWrite (Some c) o x, Waiting true).
Inductive aex (one : bool) : list (label call Out) -> astate -> Prop :=
| ax_init : aex one [] (a_init vzero)
| ax_step ls l st st' : aex one ls st -> astep st l st' -> (one = true -> undisturbed st') -> aex one (ls ++ [l]) st'.
Lemma aex_aexec ls st : aex false ls st -> aexec (effect wfun rfun bfun vzero vnew vthaw) vzero call_ok ls st.
Proof. induction 1; econstructor; eauto. Qed.
Lemma aex_aexec1 ls st : aex true ls st -> aexec1 (effect wfun rfun bfun vzero vnew vthaw) vzero call_ok ls st.
Proof. induction 1; econstructor; eauto. apply H1. reflexivity. Qed.

(* the guess g i: the call of thread i has already taken effect, storing the
   contents that were already there *)
Definition valid (g : nat -> bool) (m : mstate) : Prop :=
  forall i, g i = true -> exists c o a old vo v vs out,
    m_threads m i = Some (KWrite (Some c) o a, MMut old vo v vs) /\ wfun o v vs = Ok (Some v, out).
(* thread c's handle still holds the root it loaded, or its call is marked *)
Definition marked (cs : list (ptr * V)) (c : nat) (old : ptr) (d : bool) : Prop :=
  exists p v, nth_error cs c = Some (p, v) /\ (p <> old -> d = true).
Definition tmatch (one : bool) (m : mstate) (gi : bool) (x : option (call * mphase)) (y : option (call * status)) : Prop :=
  match x with
  | None => y = None
  | Some (k, ph) => exists s, y = Some (k, s) /\
    (forall d, s = Waiting d -> one = true -> d = false) /\
    match ph with
    | MCalled => exists d, s = Waiting d
    | MLoaded old _ => exists d, s = Waiting d /\ exists c o a, k = KWrite (Some c) o a /\ marked (m_cells m) c old d
    | MMut old _ v vs => exists c o a, k = KWrite (Some c) o a /\ arguments (m_snaps m) a = Some vs /\
        match wfun o v vs with
        | Ok (Some _, out) =>
          if gi then s = Answered (ROut out) else exists d, s = Waiting d /\ marked (m_cells m) c old d
        | Ok (None, out) => s = Answered (ROut out)
        | Panic => s = Answered RPanic
        | OutOfFuel => s = Answered RStuck
        end
    | MRead r => s = Answered (reply_of r)
    | MBuild vs => (exists d, s = Waiting d) /\ exists b a, k = KBuild b a /\ arguments (m_snaps m) a = Some vs
    | MReply r => s = Answered r
    end
  end.
Record amatch (one : bool) (g : nat -> bool) (m : mstate) (a : astate) : Prop := {
  am_cells : a_cells a = vals (m_cells m);
  am_snaps : a_snaps a = m_snaps m;
  am_threads : forall i, tmatch one m (g i) (m_threads m i) (a_threads a i) }.

Lemma amatch_undisturbed one g m a : one = true -> amatch one g m a -> undisturbed a.
Proof.
  intros O [_ _ H] i c o x K. specialize (H i). rewrite K in H. unfold tmatch in H.
  destruct (m_threads m i) as [[k ph]|]; [|discriminate]. destruct H as (s & Es & Hd & _). injection Es as <- <-.
  specialize (Hd true eq_refl O). discriminate.
Qed.
Lemma vals_nth cs c p v : nth_error cs c = Some (p, v) -> nth_error (vals cs) c = Some v.
Proof. intros H. unfold vals. rewrite nth_error_map, H. reflexivity. Qed.
Lemma vals_set cs c p v : vals (set_nth cs c (p, v)) = set_nth (vals cs) c v.
Proof. revert c. induction cs as [|x cs IH]; intros [|c]; cbn; auto. f_equal. apply IH. Qed.
Lemma marked_app cs l c old d : marked cs c old d -> marked (cs ++ l) c old d.
Proof. intros (p & v & H & K). exists p, v. split; auto. apply nth_app_some. auto. Qed.

(* the threads other than i are not affected by longer lists *)
Lemma tmatch_ext one cs ss th l1 l2 th' gi x y :
  tmatch one (mkM cs ss th) gi x y -> tmatch one (mkM (cs ++ l1) (ss ++ l2) th') gi x y.
Proof.
  unfold tmatch. destruct x as [[k ph]|]; auto. intros (s & Es & Hd & H). exists s. split; auto. split; auto. cbn [m_cells m_snaps] in *.
  destruct ph; auto.
  - destruct H as (d & Hs & c & o & a & Ek & Mk). exists d. split; auto. exists c, o, a. split; auto. apply marked_app. auto.
  - destruct H as (c & o & a & Ek & Ea & H). exists c, o, a. split; auto. split; [apply arguments_app; auto|].
    destruct (wfun o v0 vs) as [[[v1|] out]| |]; auto. destruct gi; auto. destruct H as (d & Hs & Mk). exists d. split; auto. apply marked_app. auto.
  - destruct H as (Hs & b & a & Ek & Ea). split; auto. exists b, a. split; auto. apply arguments_app. auto.
Qed.
Lemma tmatch_same one cs ss th th' gi x y : tmatch one (mkM cs ss th) gi x y -> tmatch one (mkM cs ss th') gi x y.
Proof. intros H. exact H. Qed.

Definition simulated (one : bool) (ls : list (label call Out)) (m : mstate) : Prop :=
  forall g, valid g m -> exists als a, aex one als a /\ visible als = visible ls /\ amatch one g m a.

Notation "g [ i := b ]" := (put g i b) (at level 9, only parsing).
Lemma valid_false g cs ss th i x cs0 ss0 : valid g (mkM cs ss (put th i x)) -> valid (put g i false) (mkM cs0 ss0 th).
Proof.
  intros H j Hj. destruct (Nat.eq_dec j i) as [->|N]; [rewrite put_same in Hj; discriminate|]. rewrite put_other in Hj by auto.
  destruct (H j Hj) as (c & o & a & old & vo & v & vs & out & E1 & E2). cbn [m_threads] in *. rewrite put_other in E1 by auto. eauto 14.
Qed.
Lemma valid_true g cs ss th i x cs0 ss0 c o a old vo v vs out : valid g (mkM cs ss (put th i x)) ->
  th i = Some (KWrite (Some c) o a, MMut old vo v vs) -> wfun o v vs = Ok (Some v, out) -> valid (put g i true) (mkM cs0 ss0 th).
Proof.
  intros H Ei Ew j Hj. destruct (Nat.eq_dec j i) as [->|N]; [cbn [m_threads]; eauto 14|]. rewrite put_other in Hj by auto.
  destruct (H j Hj) as (c' & o' & a' & old' & vo' & v' & vs' & out' & E1 & E2). cbn [m_threads] in *. rewrite put_other in E1 by auto. eauto 14.
Qed.
(* a step of thread i that the atomic machine does not see *)
Lemma sim_stutter one ls cs ss th i x b :
  simulated one ls (mkM cs ss th) ->
  (forall g, valid g (mkM cs ss (put th i x)) -> valid (put g i (b g)) (mkM cs ss th) /\
     forall y, tmatch one (mkM cs ss th) (b g) (th i) y -> tmatch one (mkM cs ss (put th i x)) (g i) x y) ->
  simulated one (ls ++ [Tau]) (mkM cs ss (put th i x)).
Proof.
  intros IH H g Hg. destruct (H g Hg) as [Hv Ht]. destruct (IH _ Hv) as (als & a & Hx & Ev & [Mc Ms Mt]).
  exists als, a. split; auto. split; [rewrite visible_app; cbn; rewrite app_nil_r; auto|]. constructor; auto. intros j. cbn [m_threads] in *.
  destruct (Nat.eq_dec j i) as [->|N].
  - rewrite put_same. apply Ht. specialize (Mt i). rewrite put_same in Mt. exact Mt.
  - rewrite put_other by auto. specialize (Mt j). rewrite put_other in Mt by auto. exact Mt.
Qed.
(* a step of thread i that the atomic machine makes too *)
Lemma sim_step one ls l cs ss th cs' ss' i x b :
  simulated one ls (mkM cs ss th) ->
  (forall g, valid g (mkM cs' ss' (put th i x)) -> valid (put g i (b g)) (mkM cs ss th) /\
     forall ath, (forall j, tmatch one (mkM cs ss th) (put g i (b g) j) (th j) (ath j)) ->
       exists ath' y, astep (mkA (vals cs) ss ath) l (mkA (vals cs') ss' (put ath' i y)) /\
         tmatch one (mkM cs' ss' (put th i x)) (g i) x y /\
         forall j, j <> i -> tmatch one (mkM cs ss th) (g j) (th j) (ath j) -> tmatch one (mkM cs' ss' (put th i x)) (g j) (th j) (ath' j)) ->
  simulated one (ls ++ [l]) (mkM cs' ss' (put th i x)).
Proof.
  intros IH H g Hg. destruct (H g Hg) as [Hv Ht]. destruct (IH _ Hv) as (als & a & Hx & Ev & [Mc Ms Mt]).
  destruct a as [acs ass ath]. cbn [a_cells a_snaps a_threads m_cells m_snaps m_threads] in *. subst acs ass.
  destruct (Ht ath Mt) as (ath' & y & Hs & Hi & Ho).
  assert (M' : amatch one g (mkM cs' ss' (put th i x)) (mkA (vals cs') ss' (put ath' i y))).
  { constructor; auto. intros j. cbn [m_threads a_threads]. destruct (Nat.eq_dec j i) as [->|N].
    - rewrite !put_same. exact Hi.
    - rewrite !put_other by auto. apply Ho; auto. specialize (Mt j). rewrite put_other in Mt by auto. exact Mt. }
  exists (als ++ [l]), (mkA (vals cs') ss' (put ath' i y)). split.
  - eapply ax_step; eauto. intros O. eapply amatch_undisturbed; eauto.
  - split; auto. rewrite !visible_app, Ev. reflexivity.
Qed.
(* the same with longer or equal lists, without marking other calls *)
Lemma sim_plain one ls l cs ss th l1 l2 i x b :
  simulated one ls (mkM cs ss th) ->
  (forall g, valid g (mkM (cs ++ l1) (ss ++ l2) (put th i x)) -> valid (put g i (b g)) (mkM cs ss th) /\
     forall ath, tmatch one (mkM cs ss th) (b g) (th i) (ath i) ->
       exists y, astep (mkA (vals cs) ss ath) l (mkA (vals (cs ++ l1)) (ss ++ l2) (put ath i y)) /\
         tmatch one (mkM (cs ++ l1) (ss ++ l2) (put th i x)) (g i) x y) ->
  simulated one (ls ++ [l]) (mkM (cs ++ l1) (ss ++ l2) (put th i x)).
Proof.
  intros IH H. eapply sim_step with (b := b); [exact IH|]. intros g Hg. destruct (H g Hg) as [Hv Ht]. split; auto.
  intros ath Ha. destruct (Ht ath) as (y & Hs & Hi).
  { specialize (Ha i). rewrite put_same in Ha. exact Ha. }
  exists ath, y. split; auto. split; auto. intros j N Hj. eapply tmatch_ext. exact Hj.
Qed.
Lemma disturb_id i k c o a (th : nat -> option (call * mphase)) (ath : nat -> option (call * status)) one m g :
  k = KWrite (Some c) o a -> one = true -> th = m_threads m -> m_one m -> (exists p, th i = Some (k, p)) ->
  (forall j, tmatch one m (g j) (th j) (ath j)) -> forall j, disturb i k ath j = ath j.
Proof.
  intros -> O -> M1 [p Ei] H j. unfold disturb. destruct (ath j) as [[k' [d|r]]|] eqn:Ej; auto.
  destruct (negb (j =? i)%nat && writes k' c) eqn:B; auto. apply andb_prop in B. destruct B as [B1 B2].
  exfalso. specialize (H j). rewrite Ej in H. unfold tmatch in H. destruct (m_threads m j) as [[k2 ph]|] eqn:Et; [|discriminate].
  destruct H as (s & Es & _). injection Es as <- <-. destruct k' as [| [c'|] o' a' | | | |]; try discriminate. cbn in B2.
  apply Nat.eqb_eq in B2. subst c'. assert (j = i) by (eapply M1; eauto). subst j. rewrite Nat.eqb_refl in B1. discriminate.
Qed.

Lemma sim_all rr one ls m : rr = true -> mexec rr one ls m -> simulated one ls m /\ (one = true -> m_one m).
Proof.
  intros RR. induction 1 as [|ls l st st' Hx [IH M1] Hs Ho].
  { split.
    - intros g Hg. exists [], (a_init vzero). split; [constructor|]. split; auto. constructor; auto. intros i. reflexivity.
    - intros _ i j c o a o' a' p p' H. discriminate. }
  split; auto. subst rr.
  assert (A0 : forall X (l : list X), l = l ++ []) by (intros; symmetry; apply app_nil_r).
  destruct Hs.
  - (* invoke *)
    rewrite (A0 _ cs), (A0 _ ss). eapply sim_plain with (b := fun _ => false); [exact IH|]. intros g Hg.
    split; [eapply valid_false; eauto|]. intros ath Ha. rewrite H in Ha. cbn in Ha. eexists. rewrite !app_nil_r. split; [apply a_invoke; auto|].
    cbn. eexists. split; [reflexivity|]. split; [congruence|eauto].
  - (* return *)
    rewrite (A0 _ cs), (A0 _ ss). eapply sim_plain with (b := fun _ => false); [exact IH|]. intros g Hg.
    split; [eapply valid_false; eauto|]. intros ath Ha. rewrite H in Ha. cbn in Ha. destruct Ha as (s & Es & _ & ->).
    eexists. rewrite !app_nil_r. split; [eapply a_return; eauto|]. reflexivity.
  - (* new *)
    rewrite (A0 _ ss). eapply sim_plain with (b := fun _ => false); [exact IH|]. intros g Hg.
    split; [eapply valid_false; eauto|]. intros ath Ha. rewrite H in Ha. cbn in Ha. destruct Ha as (s & Es & _ & d & ->).
    eexists. rewrite !app_nil_r. split.
    + unfold vals. rewrite map_app. cbn. eapply a_perform with (stored := false); [exact Es|]. apply e_new.
    + rewrite map_length. eexists. split; [reflexivity|]. split; [discriminate|reflexivity].
  - (* freeze *)
    rewrite (A0 _ cs). eapply sim_plain with (b := fun _ => false); [exact IH|]. intros g Hg.
    split; [eapply valid_false; eauto|]. intros ath Ha. rewrite H in Ha. cbn in Ha. destruct Ha as (s & Es & _ & d & ->).
    eexists. rewrite !app_nil_r. split.
    + eapply a_perform with (stored := false); [exact Es|]. eapply e_freeze. eapply vals_nth. eassumption.
    + eexists. split; [reflexivity|]. split; [discriminate|reflexivity].
  - (* freeze_nil *)
    rewrite (A0 _ cs). eapply sim_plain with (b := fun _ => false); [exact IH|]. intros g Hg.
    split; [eapply valid_false; eauto|]. intros ath Ha. rewrite H in Ha. cbn in Ha. destruct Ha as (s & Es & _ & d & ->).
    eexists. rewrite !app_nil_r. split.
    + eapply a_perform with (stored := false); [exact Es|]. eapply e_freeze_nil.
    + eexists. split; [reflexivity|]. split; [discriminate|reflexivity].
  - (* thaw *)
    rewrite (A0 _ ss). eapply sim_plain with (b := fun _ => false); [exact IH|]. intros g Hg.
    split; [eapply valid_false; eauto|]. intros ath Ha. rewrite H in Ha. cbn in Ha. destruct Ha as (s0 & Es & _ & d & ->).
    eexists. rewrite !app_nil_r. split.
    + unfold vals. rewrite map_app. cbn. eapply a_perform with (stored := false); [exact Es|]. eapply e_thaw; eassumption.
    + rewrite map_length. eexists. split; [reflexivity|]. split; [discriminate|reflexivity].
  - (* read *)
    rewrite (A0 _ cs), (A0 _ ss). eapply sim_plain with (b := fun _ => false); [exact IH|]. intros g Hg.
    split; [eapply valid_false; eauto|]. intros ath Ha. rewrite H in Ha. cbn in Ha. destruct Ha as (s0 & Es & _ & d & ->).
    eexists. rewrite !app_nil_r. split.
    + eapply a_perform with (stored := false); [exact Es|]. eapply e_read; eassumption.
    + eexists. split; [reflexivity|]. split; [discriminate|reflexivity].
  - (* read_done *)
    eapply sim_stutter with (b := fun _ => false); [exact IH|]. intros g Hg. split; [eapply valid_false; eauto|].
    intros y Hy. rewrite H in Hy. exact Hy.
  - (* build *)
    eapply sim_stutter with (b := fun _ => false); [exact IH|]. intros g Hg. split; [eapply valid_false; eauto|].
    intros y Hy. rewrite H in Hy. cbn in Hy. destruct Hy as (s & -> & Hd & d & ->). cbn. eexists. split; [reflexivity|]. split; auto.
    split; eauto.
  - (* build_done *)
    rewrite (A0 _ cs). eapply sim_plain with (b := fun _ => false); [exact IH|]. intros g Hg.
    split; [eapply valid_false; eauto|]. intros ath Ha. rewrite H in Ha. cbn in Ha. destruct Ha as (s0 & Es & _ & (d & ->) & b' & a' & Ek & Ea).
    injection Ek as <- <-. eexists. rewrite !app_nil_r. split.
    + eapply a_perform with (stored := false); [exact Es|]. eapply e_build; eassumption.
    + eexists. split; [reflexivity|]. split; [discriminate|reflexivity].
  - (* build_panic *)
    rewrite (A0 _ cs), (A0 _ ss). eapply sim_plain with (b := fun _ => false); [exact IH|]. intros g Hg.
    split; [eapply valid_false; eauto|]. intros ath Ha. rewrite H in Ha. cbn in Ha. destruct Ha as (s0 & Es & _ & (d & ->) & b' & a' & Ek & Ea).
    injection Ek as <- <-. eexists. rewrite !app_nil_r. split.
    + eapply a_perform with (stored := false); [exact Es|]. eapply e_build_panic; eassumption.
    + eexists. split; [reflexivity|]. split; [discriminate|reflexivity].
  - (* build_stuck *)
    rewrite (A0 _ cs), (A0 _ ss). eapply sim_plain with (b := fun _ => false); [exact IH|]. intros g Hg.
    split; [eapply valid_false; eauto|]. intros ath Ha. rewrite H in Ha. cbn in Ha. destruct Ha as (s0 & Es & _ & (d & ->) & b' & a' & Ek & Ea).
    injection Ek as <- <-. eexists. rewrite !app_nil_r. split.
    + eapply a_perform with (stored := false); [exact Es|]. eapply e_build_stuck; eassumption.
    + eexists. split; [reflexivity|]. split; [discriminate|reflexivity].
  - (* write_nil *)
    rewrite (A0 _ cs), (A0 _ ss). eapply sim_plain with (b := fun _ => false); [exact IH|]. intros g Hg.
    split; [eapply valid_false; eauto|]. intros ath Ha. rewrite H in Ha. cbn in Ha. destruct Ha as (s0 & Es & _ & d & ->).
    eexists. rewrite !app_nil_r. split.
    + eapply a_perform with (stored := false); [exact Es|]. eapply e_write_nil.
    + eexists. split; [reflexivity|]. split; [discriminate|reflexivity].
  - (* old *)
    eapply sim_stutter with (b := fun _ => false); [exact IH|]. intros g Hg. split; [eapply valid_false; eauto|].
    intros y Hy. rewrite H in Hy. cbn in Hy. destruct Hy as (s & -> & Hd & d & ->). cbn. eexists. split; [reflexivity|]. split; auto.
    exists d. split; auto. exists c, o, a. split; auto. exists p, v. split; auto; congruence.
  - (* mutator *)
    destruct (wfun o v vs) as [[[v'|] out]| |] eqn:Ew.
    + (* it stores: the guess decides *)
      intros g Hg. destruct (g i) eqn:Gi.
      * assert (v' = v).
        { destruct (Hg i Gi) as (c1 & o1 & a1 & old1 & vo1 & v1 & vs1 & out1 & E1 & E2). cbn [m_threads] in E1. rewrite put_same in E1. congruence. }
        subst v'. revert g Hg Gi.
        assert (G : forall g, valid g (mkM cs ss (put th i (Some (KWrite (Some c) o a, MMut old vo v vs)))) -> g i = true ->
           exists als a0, aex one als a0 /\ visible als = visible (ls ++ [Tau]) /\ amatch one g (mkM cs ss (put th i (Some (KWrite (Some c) o a, MMut old vo v vs)))) a0).
        { intros g Hg Gi. destruct (IH (put g i false)) as (als & a0 & Hx0 & Ev & [Mc Ms Mt]); [eapply valid_false; eauto|].
          destruct a0 as [acs ass ath]. cbn [a_cells a_snaps a_threads m_cells m_snaps m_threads] in *. subst acs ass.
          pose proof (Mt i) as Mi. rewrite H in Mi. cbn in Mi. destruct Mi as (s & Es & Hd & d & -> & Mi).
          assert (M' : amatch one g (mkM cs ss (put th i (Some (KWrite (Some c) o a, MMut old vo v vs))))
             (mkA (vals cs) ss (put (disturb i (KWrite (Some c) o a) ath) i (Some (KWrite (Some c) o a, Answered (ROut out)))))).
          { constructor; auto. intros j. cbn [m_threads a_threads]. destruct (Nat.eq_dec j i) as [->|N].
            - rewrite !put_same. cbn. eexists. split; [reflexivity|]. split; [discriminate|]. exists c, o, a. split; auto. split; auto.
              rewrite Ew, Gi. reflexivity.
            - rewrite !put_other by auto. pose proof (Mt j) as Mj. rewrite put_other in Mj by auto. apply tmatch_same with (th := th).
              destruct one.
              + assert (DI : disturb i (KWrite (Some c) o a) ath j = ath j).
                { eapply (disturb_id i _ c o a th ath true (mkM cs ss th) (put g i false)); auto; solve [exact (M1 eq_refl)|cbn; eauto]. }
                rewrite DI. exact Mj.
              + unfold disturb. destruct (ath j) as [[k' [dj|r]]|] eqn:Ej; auto. destruct (negb _ && _); auto.
                unfold tmatch in Mj |- *. destruct (th j) as [[k2 ph]|] eqn:Et; [|discriminate]. destruct Mj as (s & Esj & Hdj & Mj).
                injection Esj as <- <-. exists (Waiting true). split; auto. split; [discriminate|]. cbn [m_cells m_snaps] in *. destruct ph; eauto.
                * destruct Mj as (d1 & _ & c1 & o1 & a1 & Ek & p1 & v1 & Mn & _). exists true. split; auto. exists c1, o1, a1. split; auto. exists p1, v1. auto.
                * destruct Mj as (c1 & o1 & a1 & Ek & Ea & Mj). exists c1, o1, a1. split; auto. split; auto.
                  destruct (wfun o1 v0 vs0) as [[[v1|] out1]| |]; try discriminate Mj. destruct (g j); [discriminate|].
                  destruct Mj as (d1 & _ & p1 & v2 & Mn & _). exists true. split; auto. exists p1, v2. auto.
                * discriminate.
                * destruct Mj as (_ & Mj). split; eauto.
                * discriminate. }
          exists (als ++ [Tau]), (mkA (vals cs) ss (put (disturb i (KWrite (Some c) o a) ath) i (Some (KWrite (Some c) o a, Answered (ROut out))))).
          split; [|split; [rewrite !visible_app, Ev; reflexivity|exact M']].
          eapply ax_step; [exact Hx0| |intros O; eapply amatch_undisturbed; eauto].
          replace (vals cs) with (set_nth (vals cs) c v) at 2 by (apply set_nth_id; eapply vals_nth; eauto).
          eapply (a_perform (effect wfun rfun bfun vzero vnew vthaw) call_ok (vals cs) ss ath i (KWrite (Some c) o a) d _ _ (ROut out) true); [exact Es|].
          eapply e_write; [eapply vals_nth; eassumption|eassumption|exact Ew]. }
        exact G.
      * revert g Hg Gi. intros g Hg Gi.
        destruct (IH (put g i false)) as (als & a0 & Hx0 & Ev & [Mc Ms Mt]); [eapply valid_false; eauto|].
        exists als, a0. split; auto. split; [rewrite visible_app; cbn; rewrite app_nil_r; auto|]. constructor; auto. intros j. cbn [m_threads] in *.
        destruct (Nat.eq_dec j i) as [->|N].
        -- rewrite put_same. specialize (Mt i). rewrite put_same, H in Mt. cbn in Mt. destruct Mt as (s & Es & Hd & d & -> & c1 & o1 & a1 & Ek & Mk).
           injection Ek as <- <- <-. rewrite Gi. cbn. eexists. split; [exact Es|]. split; auto. exists c, o, a. split; auto. split; auto. rewrite Ew. eauto.
        -- rewrite put_other by auto. specialize (Mt j). rewrite put_other in Mt by auto. exact Mt.
    + rewrite (A0 _ cs), (A0 _ ss). eapply sim_plain with (b := fun _ => false); [exact IH|]. intros g Hg.
      split; [eapply valid_false; eauto|]. intros ath Ha. rewrite H in Ha. cbn in Ha. destruct Ha as (s0 & Es & _ & d & -> & _).
      eexists. rewrite !app_nil_r. split.
      * eapply a_perform with (stored := false); [exact Es|]. eapply e_write_same; [eapply vals_nth; eassumption|eassumption|exact Ew].
      * eexists. split; [reflexivity|]. split; [discriminate|]. exists c, o, a. rewrite Ew. auto.
    + rewrite (A0 _ cs), (A0 _ ss). eapply sim_plain with (b := fun _ => false); [exact IH|]. intros g Hg.
      split; [eapply valid_false; eauto|]. intros ath Ha. rewrite H in Ha. cbn in Ha. destruct Ha as (s0 & Es & _ & d & -> & _).
      eexists. rewrite !app_nil_r. split.
      * eapply a_perform with (stored := false); [exact Es|]. eapply e_write_panic; [eapply vals_nth; eassumption|eassumption|exact Ew].
      * eexists. split; [reflexivity|]. split; [discriminate|]. exists c, o, a. rewrite Ew. auto.
    + rewrite (A0 _ cs), (A0 _ ss). eapply sim_plain with (b := fun _ => false); [exact IH|]. intros g Hg.
      split; [eapply valid_false; eauto|]. intros ath Ha. rewrite H in Ha. cbn in Ha. destruct Ha as (s0 & Es & _ & d & -> & _).
      eexists. rewrite !app_nil_r. split.
      * eapply a_perform with (stored := false); [exact Es|]. eapply e_write_stuck; [eapply vals_nth; eassumption|eassumption|exact Ew].
      * eexists. split; [reflexivity|]. split; [discriminate|]. exists c, o, a. rewrite Ew. auto.
  - (* write_panic *)
    eapply sim_stutter with (b := fun _ => false); [exact IH|]. intros g Hg. split; [eapply valid_false; eauto|].
    intros y Hy. rewrite H in Hy. cbn in Hy. destruct Hy as (s & -> & Hd & c1 & o1 & a1 & Ek & Ea & Hy). injection Ek as <- <- <-. rewrite H0 in Hy.
    eexists. eauto.
  - eapply sim_stutter with (b := fun _ => false); [exact IH|]. intros g Hg. split; [eapply valid_false; eauto|].
    intros y Hy. rewrite H in Hy. cbn in Hy. destruct Hy as (s & -> & Hd & c1 & o1 & a1 & Ek & Ea & Hy). injection Ek as <- <- <-. rewrite H0 in Hy.
    eexists. eauto.
  - eapply sim_stutter with (b := fun _ => false); [exact IH|]. intros g Hg. split; [eapply valid_false; eauto|].
    intros y Hy. rewrite H in Hy. cbn in Hy. destruct Hy as (s & -> & Hd & c1 & o1 & a1 & Ek & Ea & Hy). injection Ek as <- <- <-. rewrite H0 in Hy.
    eexists. eauto.
  - (* keep *)
    specialize (H2 eq_refl). clear H1. subst v'.
    eapply sim_stutter with (b := fun _ => true); [exact IH|]. intros g Hg. split; [eapply valid_true; eauto|].
    intros y Hy. rewrite H in Hy. cbn in Hy. destruct Hy as (s & -> & Hd & c1 & o1 & a1 & Ek & Ea & Hy). injection Ek as <- <- <-. rewrite H0 in Hy.
    eexists. eauto.
  - (* swap *)
    specialize (H3 eq_refl). clear H2. subst v1.
    eapply sim_step with (b := fun _ => false); [exact IH|]. intros g Hg. split; [eapply valid_false; eauto|].
    intros ath Ha. pose proof (Ha i) as Hi. rewrite put_same, H in Hi. cbn in Hi.
    destruct Hi as (s & Es & Hd & c1 & o1 & a1 & Ek & Ea & Hi). injection Ek as <- <- <-. rewrite H0 in Hi. destruct Hi as (d & -> & _).
    exists (disturb i (KWrite (Some c) o a) ath), (Some (KWrite (Some c) o a, Answered (ROut out))).
    split; [|split].
    + rewrite vals_set. eapply (a_perform (effect wfun rfun bfun vzero vnew vthaw) call_ok (vals cs) ss ath i (KWrite (Some c) o a) d _ _ (ROut out) true); [exact Es|].
      eapply e_write; [eapply vals_nth; eassumption|eassumption|eassumption].
    + eexists. split; [reflexivity|]. split; [discriminate|reflexivity].
    + intros j N Hj.
      assert (Lc : (c < length cs)%nat) by (apply nth_error_Some; congruence).
      assert (MK : forall c1 old1 d1, marked cs c1 old1 d1 -> (c1 = c -> d1 = true) -> marked (set_nth cs c (new, v')) c1 old1 d1).
      { intros c1 old1 d1 (p1 & v1 & Mn & Md) K. destruct (Nat.eq_dec c1 c) as [->|Nc].
        - exists new, v'. split; [apply set_nth_same; auto|auto].
        - exists p1, v1. split; [rewrite set_nth_other by auto; auto|auto]. }
      destruct one.
      * assert (DI : disturb i (KWrite (Some c) o a) ath j = ath j).
        { eapply (disturb_id i _ c o a th ath true (mkM cs ss th) (put g i false)); auto; solve [exact (M1 eq_refl)|cbn; eauto]. }
        rewrite DI.
        unfold tmatch in Hj |- *. destruct (th j) as [[k2 ph]|] eqn:Et; auto. destruct Hj as (s & Esj & Hdj & Mj).
        assert (NW : forall c1 o1 a1, k2 = KWrite (Some c1) o1 a1 -> c1 <> c).
        { intros c1 o1 a1 -> ->. apply N. eapply (M1 eq_refl); cbn; eauto. }
        exists s. split; auto. split; auto. cbn [m_cells m_snaps] in *. destruct ph; eauto.
        -- destruct Mj as (d1 & -> & c1 & o1 & a1 & Ek & Mk). exists d1. split; auto. exists c1, o1, a1. split; auto. apply MK; auto. intros ->. exfalso; eapply NW; eauto.
        -- destruct Mj as (c1 & o1 & a1 & Ek & Ea1 & Mj). exists c1, o1, a1. split; auto. split; auto.
           destruct (wfun o1 v0 vs0) as [[[v1|] out1]| |]; auto. destruct (g j); auto.
           destruct Mj as (d1 & -> & Mk). exists d1. split; auto. apply MK; auto. intros ->. exfalso; eapply NW; eauto.
      * unfold tmatch in Hj |- *. destruct (th j) as [[k2 ph]|] eqn:Et; [|unfold disturb; rewrite Hj; auto]. destruct Hj as (s & Esj & Hdj & Mj).
        set (s' := match s with Waiting d0 => if negb (j =? i)%nat && writes k2 c then Waiting true else Waiting d0 | _ => s end).
        exists s'. split; [unfold disturb, s'; rewrite Esj; destruct s; auto; destruct (negb _ && _); auto|]. split; [discriminate|].
        assert (Nb : negb (j =? i)%nat = true) by (destruct (Nat.eqb_spec j i); [congruence|reflexivity]).
        assert (SW : forall d0, s = Waiting d0 -> exists d1, s' = Waiting d1 /\ (d0 = true -> d1 = true) /\ forall c1 o1 a1, k2 = KWrite (Some c1) o1 a1 -> c1 = c -> d1 = true).
        { intros d0 ->. unfold s'. rewrite Nb. cbn [andb]. destruct (writes k2 c) eqn:B; [exists true; auto|]. exists d0. split; auto. split; auto.
          intros c1 o1 a1 -> ->. cbn in B. rewrite Nat.eqb_refl in B. discriminate. }
        assert (SA : forall r, s = Answered r -> s' = Answered r) by (intros r ->; reflexivity).
        cbn [m_cells m_snaps] in *. destruct ph; auto.
        -- destruct Mj as (d0 & E0). destruct (SW _ E0) as (d1 & -> & _). eauto.
        -- destruct Mj as (d0 & E0 & c1 & o1 & a1 & Ek & Mk). destruct (SW _ E0) as (d1 & -> & D1 & D2). exists d1. split; auto. exists c1, o1, a1. split; auto.
           apply MK; [|intros Ec; eapply D2; eauto]. destruct Mk as (p1 & v1 & Mn & Md). exists p1, v1. auto.
        -- destruct Mj as (c1 & o1 & a1 & Ek & Ea1 & Mj). exists c1, o1, a1. split; auto. split; auto.
           destruct (wfun o1 v0 vs0) as [[[v1|] out1]| |]; auto. destruct (g j); auto.
           destruct Mj as (d0 & E0 & Mk). destruct (SW _ E0) as (d1 & -> & D1 & D2). exists d1. split; auto.
           apply MK; [|intros Ec; eapply D2; eauto]. destruct Mk as (p1 & v2 & Mn & Md). exists p1, v2. auto.
        -- destruct Mj as ((d0 & E0) & Mj). split; auto. destruct (SW _ E0) as (d1 & -> & _). eauto.
  - (* conflict *)
    rewrite (A0 _ cs), (A0 _ ss). eapply sim_plain with (b := fun _ => false); [exact IH|]. intros g Hg.
    split; [eapply valid_false; eauto|]. intros ath Ha. rewrite H in Ha. cbn in Ha. destruct Ha as (s0 & Es & _ & c1 & o1 & a1 & Ek & Ea & Hi).
    injection Ek as <- <- <-. rewrite H0 in Hi. destruct Hi as (d & -> & p1 & v2 & Mn & Md). rewrite H1 in Mn. injection Mn as <- <-.
    specialize (Md H2). subst d. eexists. rewrite !app_nil_r. split; [eapply a_conflict; eauto|].
    eexists. split; [reflexivity|]. split; [discriminate|reflexivity].
Qed.

(* the traces of the machine in between are traces of the atomic one *)
Lemma mid_atomic one ls m : mexec true one ls m -> exists als a, aex one als a /\ visible als = visible ls /\
  a_cells a = vals (m_cells m) /\ a_snaps a = m_snaps m.
Proof.
  intros H. destruct (sim_all true one ls m eq_refl H) as [S _]. destruct (S (fun _ => false)) as (als & a & Hx & Ev & [Mc Ms _]).
  - intros i Hi. discriminate.
  - eauto 8.
Qed.
End Mid.

(* ---------------- from the concrete machine to the one in between ---------------- *)
Section Low.
Context {T E WOp ROp BOp Out V : Type}.
Notation hp := (heap T).
Notation aset := (nat -> Prop).
Notation call := (call E WOp ROp BOp).
Notation value := (ptr * E)%type.
Variable wprog : WOp -> value -> list value -> prog T (option ptr * Out).
Variable rprog : ROp -> option value -> list value -> prog T Out.
Variable bprog : BOp -> list value -> prog T ptr.
Variable zeroE : E.
Variable bext : BOp -> list value -> E.
Variable thawE : E -> E.
Variable call_ok : call -> Prop.
Variable wfun : WOp -> V -> list V -> res (option V * Out).
Variable rfun : ROp -> option V -> list V -> res Out.
Variable bfun : BOp -> list V -> res V -> Prop.
Variable vzero : V.
Variable vnew : E -> V.
Variable vthaw : V -> V.
(* a value is a tree and an extra part; vok says it is one a client can hold *)
Variable vt : V -> trie T.
Variable ve : V -> E.
Variable vok : V -> Prop.
(* what the extra part of a handle's contents satisfies *)
Variable wok : E -> Prop.

(* the pointer p with the extra part e holds v *)
Definition crep (S : aset) (h : hp) (x : value) (v : V) : Prop := repr S h (fst x) (vt v) /\ snd x = ve v /\ vok v.
Definition wpost (e : E) (R : res (option V * Out)) (r : res (option ptr * Out)) (S : aset) (h : hp) : Prop :=
  match r, R with
  | Ok (Some p, out), Ok (Some v, out') => out = out' /\ crep S h (p, e) v
  | Ok (None, out), Ok (None, out') => out = out'
  | Panic, Panic => True
  | OutOfFuel, OutOfFuel => True
  | _, _ => False
  end.
Definition rpost (R : res Out) (r : res Out) (S : aset) (h : hp) : Prop := r = R.
Definition bpost (b : BOp) (vs : list V) (e : E) (r : res ptr) (S : aset) (h : hp) : Prop :=
  exists R, bfun b vs R /\
  match r, R with
  | Ok p, Ok v => crep S h (p, e) v
  | Panic, Panic => True
  | OutOfFuel, OutOfFuel => True
  | _, _ => False
  end.
Definition orep (S : aset) (h : hp) (x : option value) (v : option V) : Prop :=
  match x, v with Some a, Some b => crep S h a b | None, None => True | _, _ => False end.

(* what is assumed of the programs: each computes its function on values, in any
   heap that holds its arguments, whatever the other threads do meanwhile, and
   writes only to nodes it has allocated itself *)
Record programs_ok : Prop := {
  ok_ext : forall v v', vt v = vt v' -> ve v = ve v' -> v = v';
  ok_zero : forall S h, crep S h (None, zeroE) vzero;
  ok_new : forall S h e, call_ok (KNew e) -> crep S h (None, e) (vnew e) /\ wok e;
  ok_thaw : forall S h p e v s, call_ok (KThaw s) -> crep S h (p, e) v -> crep S h (p, thawE e) (vthaw v) /\ wok (thawE e);
  ok_wown : forall o x vs, owns none (wprog o x vs);
  ok_rown : forall r x vs, owns none (rprog r x vs);
  ok_bown : forall b vs, owns none (bprog b vs);
  ok_write : forall c o a S h x v xs vs, call_ok (KWrite (Some c) o a) -> dom S h -> crep S h x v -> wok (ve v) -> Forall2 (crep S h) xs vs ->
    length a = length xs -> wpi S h (wprog o x xs) (wpost (ve v) (wfun o v vs));
  ok_read : forall y r a S h x v xs vs, call_ok (KRead y r a) -> dom S h -> orep S h x v -> Forall2 (crep S h) xs vs ->
    length a = length xs -> wpi S h (rprog r x xs) (rpost (rfun r v vs));
  ok_build : forall b a S h xs vs, call_ok (KBuild b a) -> dom S h -> Forall2 (crep S h) xs vs ->
    length a = length xs -> wpi S h (bprog b xs) (bpost b vs (bext b xs)) }.
Hypothesis OK : programs_ok.

Lemma crep_mono S S' h h' x v : crep S h x v -> incl_s S S' -> keeps S h h' -> crep S' h' x v.
Proof. intros (R & He & Hv) I K. split; [eapply repr_keep; eauto|auto]. Qed.
Lemma wpost_good e R : stable (wpost e R) /\ mono (wpost e R).
Proof.
  split.
  - intros r S h h' H Rl. unfold wpost in *. destruct r as [[[p|] out]| |], R as [[[v|] out']| |]; auto.
    destruct H as [-> H]. split; auto. eapply crep_mono; eauto; [apply incl_refl|apply Rl].
  - intros r S S' h H I. unfold wpost in *. destruct r as [[[p|] out]| |], R as [[[v|] out']| |]; auto.
    destruct H as [-> H]. split; auto. eapply crep_mono; eauto. apply keeps_refl.
Qed.
Lemma bpost_good b vs e : stable (bpost b vs e) /\ mono (bpost b vs e).
Proof.
  split.
  - intros r S h h' (R & Hb & H) Rl. exists R. split; auto. destruct r, R; auto. eapply crep_mono; eauto; [apply incl_refl|apply Rl].
  - intros r S S' h (R & Hb & H) I. exists R. split; auto. destruct r, R; auto. eapply crep_mono; eauto. apply keeps_refl.
Qed.
Lemma rpost_good R : stable (rpost R) /\ mono (rpost R).
Proof. split; intros r S h h' H I; exact H. Qed.

Lemma ptr_dec (p q : ptr) : {p = q} + {p <> q}.
Proof. decide equality. apply Nat.eq_dec. Qed.
Notation phase := (@phase T E Out).
Notation mphase := (@mphase V Out).
(* the extra part of a handle's contents never changes *)
Definition ext_of (cs : list (ptr * V)) (c : nat) (e : E) : Prop := exists p v, nth_error cs c = Some (p, v) /\ ve v = e.
(* a root that clients know of *)
Definition known (F : aset) (p : ptr) : Prop := match p with None => True | Some l => F l end.
(* A handle c whose contents may only get smaller in the measure mu: it holds no
   more than vo; and it no longer holds the root old with the contents vo, and
   never will again. *)
Section Mu.
Variable mu : nat -> V -> nat.
Definition below (cs : list (ptr * V)) (c : nat) (vo : V) : Prop := exists p v, nth_error cs c = Some (p, v) /\ (mu c v <= mu c vo)%nat.
Definition dead (cs : list (ptr * V)) (c : nat) (old : ptr) (vo : V) : Prop :=
  exists p v, nth_error cs c = Some (p, v) /\ (mu c v <= mu c vo)%nat /\ (p <> old \/ (mu c v < mu c vo)%nat).
(* the program returns the root p0 it was given, or a node of its own, or, if b,
   a child of that root's node n0 *)
Definition yields (b : bool) (O : aset) (p0 : ptr) (n0 : hnode T) (m : prog T (option ptr * Out)) : Prop :=
  owng (fun l n => p0 = Some l -> n = n0) O m (fun r O' => forall q, fst r = Some q -> q = p0 \/ (exists l, q = Some l /\ O' l) \/
    b = true /\ p0 <> None /\ (q = hc0 n0 \/ q = hc1 n0)).
Definition kid_of (t' t : trie T) : Prop := match t with Nil => False | Node _ _ _ _ _ l r => t' = l \/ t' = r end.
Definition smaller (c : nat) (v : V) : Prop := forall v', vok v' -> kid_of (vt v') (vt v) -> (mu c v' < mu c v)%nat.
Definition wmono (c : nat) (o : WOp) (v : V) (vs : list V) : Prop := forall v' out, wfun o v vs = Ok (Some v', out) -> (mu c v' <= mu c v)%nat.
(* this is assumed of the modifying calls when the strict machine is to follow
   the code with its two loads of the root: then a handle never gets an old root
   back, and a call that worked on another root than it loaded first cannot store *)
Definition wyields : Prop := forall c o a, call_ok (KWrite (Some c) o a) ->
  (forall v vs, vok v -> wok (ve v) -> wmono c o v vs) /\
  exists b, (forall x xs n0, yields b none (fst x) n0 (wprog o x xs)) /\ (b = true -> forall v, vok v -> smaller c v).
Definition grows (rr sr : bool) (F : aset) (cs cs' : list (ptr * V)) : Prop :=
  (forall c e, ext_of cs c e -> ext_of cs' c e) /\
  (rr = true -> sr = true -> (forall c vo, below cs c vo -> below cs' c vo) /\ forall c old vo, known F old -> dead cs c old vo -> dead cs' c old vo).
Definition tinv (rr sr : bool) (F O : aset) (h : hp) (cs : list (ptr * V)) (x : option (call * phase)) (y : option (call * mphase)) : Prop :=
  match x, y with
  | None, None => True
  | Some (k, ph), Some (k', mph) => k = k' /\ call_ok k /\
    match ph, mph with
    | Called, MCalled => True
    | Loaded old, MLoaded old' vo => old = old' /\ exists c o a, k = KWrite (Some c) o a /\ repr F h old (vt vo) /\ ext_of cs c (ve vo) /\ (rr = true -> sr = true -> below cs c vo)
    | Mutating old m, MMut old' vo v vs => old = old' /\ exists c o a, k = KWrite (Some c) o a /\ (repr F h old (vt vo) /\ ext_of cs c (ve vo)) /\ vok v /\ ext_of cs c (ve v) /\
        owns O m /\ wpi (both F O) h m (wpost (ve v) (wfun o v vs)) /\ (sr = true -> exists p0, repr F h p0 (vt v) /\
          (rr = true -> (mu c v <= mu c vo)%nat /\ wmono c o v vs /\ exists b n0, (forall l, p0 = Some l -> nth_error h l = Some n0) /\ yields b O p0 n0 m /\ (b = true -> smaller c v)) /\
          (old = p0 \/ rr = true /\ dead cs c old vo))
    | Reading m, MRead r => owns O m /\ wpi (both F O) h m (rpost r)
    | Building e m, MBuild vs => exists b a, k = KBuild b a /\ owns O m /\ wpi (both F O) h m (bpost b vs e)
    | Replying r, MReply r' => r = r'
    | _, _ => False
    end
  | _, _ => False
  end.
Definition cellrel (F : aset) (h : hp) (x : value) (y : ptr * V) : Prop := fst x = fst y /\ crep F h x (snd y) /\ wok (snd x).
Record linv (rr sr : bool) (F : aset) (O : nat -> aset) (st : cstate) (m : mstate) : Prop := {
  li_domF : dom F (c_heap st);
  li_domO : forall i, dom (O i) (c_heap st);
  li_FO : forall i x, F x -> O i x -> False;
  li_OO : forall i j x, i <> j -> O i x -> O j x -> False;
  li_cells : Forall2 (cellrel F (c_heap st)) (c_cells st) (m_cells m);
  li_snaps : Forall2 (crep F (c_heap st)) (c_snaps st) (m_snaps m);
  li_threads : forall i, tinv rr sr F (O i) (c_heap st) (m_cells m) (c_threads st i) (m_threads m i) }.

Lemma kid_ptr S S' (h : hp) p0 n0 q t t' : repr S h p0 t -> (forall l, p0 = Some l -> nth_error h l = Some n0) -> p0 <> None ->
  (q = hc0 n0 \/ q = hc1 n0) -> repr S' h q t' -> kid_of t' t.
Proof.
  intros R N Np K R'. destruct t as [|p d s hh a l r]; cbn [repr] in R; [congruence|]. destruct R as (i & c0 & c1 & -> & _ & Hn & Rl & Rr).
  rewrite (N i eq_refl) in Hn. injection Hn as ->. cbn [hc0 hc1] in K. cbn. destruct K as [->| ->]; [left|right]; eapply repr_det; eauto.
Qed.
Lemma repr_known F (h : hp) p t : repr F h p t -> known F p.
Proof. destruct t; cbn [repr]; [intros ->; exact I|]. intros (i & c0 & c1 & -> & K & _). exact K. Qed.
Lemma tinv_env rr sr F O h cs F' h' cs' x y : tinv rr sr F O h cs x y -> incl_s F F' -> rely (both F O) h h' ->
  grows rr sr F cs cs' -> tinv rr sr F' O h' cs' x y.
Proof.
  intros H I R [X X23]. destruct x as [[k ph]|], y as [[k' mph]|]; auto. cbn [tinv] in *. destruct H as (-> & Ok & H). split; auto. split; auto.
  assert (IB : incl_s (both F O) (both F' O)) by (intros z [Hz|Hz]; [left; auto|right; auto]).
  assert (RF : rely F h h') by (eapply rely_incl; [|exact R]; intros z Hz; left; auto).
  assert (KN : forall p, known F p -> known F' p) by (intros [z|]; cbn; auto).
  destruct ph, mph; auto.
  - destruct H as (-> & c & o & a & Ek & Ro & Ex & Eo). split; auto. exists c, o, a. split; auto. split; [eapply repr_keep; [exact Ro|exact I|apply RF]|]. split; auto. intros E1 E0. apply X23; auto.
  - destruct H as (-> & c & o & a & Ek & (Ro & Eo) & Hv & He & Ow & Wp & Rp). split; auto. exists c, o, a. split; auto.
    split; [split; [eapply repr_keep; [exact Ro|exact I|apply RF]|auto]|]. split; auto. split; auto. split; auto. split.
    + eapply wpi_weaken; [apply wpost_good|exact IB|]. eapply wpi_stable; [apply wpost_good|exact Wp|exact R].
    + intros E0. destruct (Rp E0) as (p0 & R0 & Y & D). exists p0. split; [eapply repr_keep; [exact R0|exact I|apply RF]|]. split.
      * intros E1. destruct (Y E1) as (Y1 & Y2 & b & n0 & Y3 & Y4 & Y5). split; auto. split; auto. exists b, n0. split; auto. intros l El.
        destruct RF as [_ RF]. rewrite RF; auto. pose proof (repr_known F h p0 _ R0) as Kn. rewrite El in Kn. exact Kn.
      * destruct D as [->|(E1 & D)]; auto. right. split; auto. apply X23; auto. eapply repr_known; eauto.
  - destruct H as (Ow & Wp). split; auto. eapply wpi_weaken; [apply rpost_good|exact IB|]. eapply wpi_stable; [apply rpost_good|exact Wp|exact R].
  - destruct H as (b & a & Ek & Ow & Wp). exists b, a. split; auto. split; auto.
    eapply wpi_weaken; [apply bpost_good|exact IB|]. eapply wpi_stable; [apply bpost_good|exact Wp|exact R].
Qed.

(* the step of thread i: the heap changes only at its own nodes and at new ones *)
Lemma linv_step rr sr F O h cs ss th mcs mss mth F' (Oi : aset) h' cs' ss' mcs' mss' i x y :
  linv rr sr F O (mkC h cs ss th) (mkM mcs mss mth) ->
  incl_s F F' -> (forall z, F' z -> F z \/ O i z) -> (forall z, Oi z -> O i z \/ (length h <= z)%nat) -> (forall z, F' z -> Oi z -> False) ->
  (length h <= length h')%nat -> (forall z, (z < length h)%nat -> ~ O i z -> nth_error h' z = nth_error h z) ->
  dom Oi h' ->
  grows rr sr F mcs mcs' ->
  Forall2 (cellrel F' h') cs' mcs' -> Forall2 (crep F' h') ss' mss' ->
  tinv rr sr F' Oi h' mcs' x y ->
  linv rr sr F' (put O i Oi) (mkC h' cs' ss' (put th i x)) (mkM mcs' mss' (put mth i y)).
Proof.
  intros [dF dO FO OO Cc Cs Ct] IF F1 O1 FO1 L K D1 X Cc' Cs' Ti. cbn [c_heap c_cells c_snaps c_threads m_cells m_snaps m_threads] in *.
  constructor; cbn [c_heap c_cells c_snaps c_threads m_cells m_snaps m_threads]; auto.
  - intros z Hz. destruct (F1 z Hz) as [H|H]; [specialize (dF z H); lia|specialize (dO i z H); lia].
  - intros j. destruct (Nat.eq_dec j i) as [->|N]; [rewrite put_same; auto|]. rewrite put_other by auto. intros z Hz. specialize (dO j z Hz). lia.
  - intros j z Hf Ho. destruct (Nat.eq_dec j i) as [->|N]; [rewrite put_same in Ho; eauto|]. rewrite put_other in Ho by auto.
    destruct (F1 z Hf) as [H|H]; eauto.
  - assert (G : forall j z, j <> i -> Oi z -> O j z -> False).
    { intros j z N Hi Hj. destruct (O1 z Hi) as [H|H]; [eauto|]. specialize (dO j z Hj). lia. }
    intros j k z N Hj Hk. destruct (Nat.eq_dec j i) as [->|Nj], (Nat.eq_dec k i) as [->|Nk].
    + congruence.
    + rewrite put_same in Hj. rewrite put_other in Hk by auto. eauto.
    + rewrite put_same in Hk. rewrite put_other in Hj by auto. eauto.
    + rewrite put_other in Hj, Hk by auto. eauto.
  - intros j. destruct (Nat.eq_dec j i) as [->|N]; [rewrite !put_same; auto|]. rewrite !put_other by auto.
    eapply tinv_env; [apply Ct|exact IF| |exact X]. split; auto. intros z [Hz|Hz].
    + apply K; [apply dF; auto|]. intros Hi. eauto.
    + apply K; [eapply dO; eauto|]. intros Hi. eauto.
Qed.
(* ... that leaves the heap alone *)
Lemma linv_pure rr sr F O h cs ss th mcs mss mth cs' ss' mcs' mss' i x y :
  linv rr sr F O (mkC h cs ss th) (mkM mcs mss mth) ->
  grows rr sr F mcs mcs' ->
  Forall2 (cellrel F h) cs' mcs' -> Forall2 (crep F h) ss' mss' ->
  tinv rr sr F none h mcs' x y ->
  linv rr sr F (put O i none) (mkC h cs' ss' (put th i x)) (mkM mcs' mss' (put mth i y)).
Proof.
  intros L X Cc Cs Ti. eapply linv_step; [exact L| | | | | | | | | | |]; auto.
  - apply incl_refl.
  - intros z [].
  - intros z [].
Qed.
(* ... that runs its program *)
Lemma linv_run {A} rr sr F O h cs ss th mcs mss mth i h' (m m' : prog T A) Q x y :
  linv rr sr F O (mkC h cs ss th) (mkM mcs mss mth) -> pstep h m h' m' -> owns (O i) m -> mono Q -> wpi (both F (O i)) h m Q ->
  mth i = y ->
  (forall Oi : aset, owns Oi m' -> (forall (G : nat -> hnode T -> Prop) P, (forall l n, nth_error h l = Some n -> G l n) -> owng G (O i) m P -> owng G Oi m' P) -> wpi (both F Oi) h' m' Q -> rely F h h' -> tinv rr sr F Oi h' mcs x y) ->
  exists Oi : aset, linv rr sr F (put O i Oi) (mkC h' cs ss (put th i x)) (mkM mcs mss mth).
Proof.
  intros L St Ow M Wp Ey K. pose proof L as [dF dO FO OO Cc Cs Ct]. cbn [c_heap c_cells c_snaps c_threads m_cells m_snaps m_threads] in *.
  destruct (pstep_own h m h' m' F (O i) Q St dF (dO i) Ow M Wp) as (Oi & I1 & D1 & (Ow1 & Yw1) & Wp1 & N1 & L1 & K1).
  assert (RF : rely F h h') by (split; auto; intros z Hz; apply K1; eauto).
  exists Oi.
  assert (G : linv rr sr F (put O i Oi) (mkC h' cs ss (put th i x)) (mkM mcs mss (put mth i y))).
  { eapply linv_step; [exact L| | | | | | | | | | |]; auto; try (split; auto; fail).
    - apply incl_refl.
    - intros z Hf Ho. destruct (N1 z Ho) as [H|H]; [eauto|]. specialize (dF z Hf). lia.
    - eapply Forall2_mono; [|exact Cc]. intros a b (E1 & E2 & E3). split; auto. split; auto. eapply crep_mono; [exact E2|apply incl_refl|apply RF].
    - eapply Forall2_mono; [|exact Cs]. intros a b E2. eapply crep_mono; [exact E2|apply incl_refl|apply RF]. }
  destruct G as [g1 g2 g3 g4 g5 g6 g7]. constructor; auto. intros j. specialize (g7 j). cbn [m_threads] in *.
  destruct (Nat.eq_dec j i) as [->|N]; [|rewrite (put_other mth) in g7 by auto; exact g7]. rewrite (put_same mth) in g7. rewrite Ey. exact g7.
Qed.
(* ... that publishes its nodes *)
Lemma linv_publish rr sr F O h cs ss th mcs mss mth cs' ss' mcs' mss' i x y :
  linv rr sr F O (mkC h cs ss th) (mkM mcs mss mth) ->
  grows rr sr F mcs mcs' ->
  Forall2 (cellrel (both F (O i)) h) cs' mcs' -> Forall2 (crep (both F (O i)) h) ss' mss' ->
  tinv rr sr (both F (O i)) none h mcs' x y ->
  linv rr sr (both F (O i)) (put O i none) (mkC h cs' ss' (put th i x)) (mkM mcs' mss' (put mth i y)).
Proof.
  intros L X Cc Cs Ti. eapply linv_step; [exact L| | | | | | | | | | |]; auto.
  - intros z Hz. left. exact Hz.
  - intros z [].
  - intros z [].
Qed.

Notation cstep := (cstep wprog rprog bprog zeroE bext thawE call_ok).
Notation mstep := (mstep wfun rfun bfun vzero vnew vthaw call_ok).
Notation cstate := (@cstate T E WOp ROp BOp Out).
Lemma cellrel_ptr F h cs mcs c p e : Forall2 (cellrel F h) cs mcs -> nth_error cs c = Some (p, e) ->
  exists v, nth_error mcs c = Some (p, v) /\ crep F h (p, e) v /\ wok e.
Proof.
  intros H E0. destruct (Forall2_nth _ _ _ _ _ H E0) as ([p' v] & En & E1 & E2 & E3). cbn in E1, E2, E3. subst p'. eauto.
Qed.
Lemma cells_vals F h cs mcs : Forall2 (cellrel F h) cs mcs -> Forall2 (crep F h) cs (vals mcs).
Proof. intros H. induction H as [|x y l l' (_ & H & _) _ IH]; cbn; constructor; auto. Qed.
Lemma arguments_length {X} (ss : list X) a xs : arguments ss a = Some xs -> length a = length xs.
Proof.
  revert xs. induction a as [|s0 a IH]; intros xs H; cbn [arguments] in H; [injection H as <-; reflexivity|].
  destruct (nth_error ss s0); [|discriminate]. destruct (arguments ss a); [|discriminate]. injection H as <-. cbn. f_equal. auto.
Qed.
Lemma ext_det cs c e e' : ext_of cs c e -> ext_of cs c e' -> e = e'.
Proof. intros (p & v & H & K) (p' & v' & H' & K'). rewrite H in H'. injection H' as <- <-. congruence. Qed.
Lemma ext_app cs l c e : ext_of cs c e -> ext_of (cs ++ l) c e.
Proof. intros (p & v & H & K). exists p, v. split; auto. apply nth_app_some. auto. Qed.
Lemma grows_app rr sr F cs l : grows rr sr F cs (cs ++ l).
Proof.
  split; [intros; apply ext_app; auto|]. intros _ _. split.
  - intros c vo (p & v & H & K). exists p, v. split; auto. apply nth_app_some. auto.
  - intros c old vo _ (p & v & H & K). exists p, v. split; auto. apply nth_app_some. auto.
Qed.
Lemma none_both F : incl_s F (both F none). Proof. intros z Hz. left. exact Hz. Qed.
Lemma F2_app {X Y} (P : X -> Y -> Prop) l m x y : Forall2 P l m -> P x y -> Forall2 P (l ++ [x]) (m ++ [y]).
Proof. intros H K. apply Forall2_app; auto. Qed.

Lemma low_step rr sr F O st m l st' : (rr = true -> sr = true -> wyields) -> linv rr sr F O st m -> cstep rr st l st' ->
  exists F' O' m', incl_s F F' /\ rely F (c_heap st) (c_heap st') /\ linv rr sr F' O' st' m' /\ (mstep sr m l m' \/ l = Tau /\ m' = m).
Proof.
  intros HY L Hs. pose proof L as [dF dO FO OO Cc Cs Ct]. destruct m as [mcs mss mth].
  assert (PP : incl_s F F) by apply incl_refl. assert (PQ : forall h : hp, rely F h h) by (intros; apply rely_refl).
  assert (XR : grows rr sr F mcs mcs) by (split; auto).
  destruct Hs; cbn [c_heap c_cells c_snaps c_threads m_cells m_snaps m_threads] in *;
    match goal with |- context [put _ ?j _] => pose proof (Ct j) as Ti end.
  - (* invoke *)
    rewrite H in Ti. destruct (mth i) as [[? ?]|] eqn:Ei; [contradiction|].
    exists F, (put O i none), (mkM mcs mss (put mth i (Some (k, MCalled)))). split; [apply incl_refl|]. split; [apply rely_refl|]. split.
    + eapply linv_pure; eauto. cbn. auto.
    + left. constructor; auto.
  - (* return *)
    rewrite H in Ti. destruct (mth i) as [[k' ph]|] eqn:Ei; [|contradiction]. cbn in Ti. destruct Ti as (<- & Ck & Ti). destruct ph; try contradiction. subst r0.
    exists F, (put O i none), (mkM mcs mss (put mth i None)). split; [apply incl_refl|]. split; [apply rely_refl|]. split.
    + eapply linv_pure; eauto. exact I.
    + left. econstructor; eauto.
  - (* new *)
    rewrite H in Ti. destruct (mth i) as [[k' ph]|] eqn:Ei; [|contradiction]. cbn in Ti. destruct Ti as (<- & Ck & Ti). destruct ph; try contradiction.
    exists F, (put O i none), (mkM (mcs ++ [(None, vnew e)]) mss (put mth i (Some (KNew e, MReply (RHandle (length mcs)))))).
    split; [apply incl_refl|]. split; [apply rely_refl|]. split.
    + eapply linv_pure; eauto.
      * apply grows_app.
      * apply F2_app; auto. split; auto. cbn [snd]. apply (ok_new OK); auto.
      * cbn. rewrite (Forall2_len _ _ _ Cc). auto.
    + left. constructor; auto.
  - (* freeze *)
    rewrite H in Ti. destruct (mth i) as [[k' ph]|] eqn:Ei; [|contradiction]. cbn in Ti. destruct Ti as (<- & Ck & Ti). destruct ph; try contradiction.
    destruct v as [p e]. destruct (cellrel_ptr _ _ _ _ _ _ _ Cc H0) as (v & En & Cr & Wk).
    exists F, (put O i none), (mkM mcs (mss ++ [v]) (put mth i (Some (KFreeze (Some c), MReply (RSnap (length mss)))))).
    split; [apply incl_refl|]. split; [apply rely_refl|]. split.
    + eapply linv_pure; eauto.
      * apply F2_app; auto.
      * cbn. rewrite (Forall2_len _ _ _ Cs). auto.
    + left. econstructor; eauto.
  - (* freeze_nil *)
    rewrite H in Ti. destruct (mth i) as [[k' ph]|] eqn:Ei; [|contradiction]. cbn in Ti. destruct Ti as (<- & Ck & Ti). destruct ph; try contradiction.
    exists F, (put O i none), (mkM mcs (mss ++ [vzero]) (put mth i (Some (KFreeze None, MReply (RSnap (length mss)))))).
    split; [apply incl_refl|]. split; [apply rely_refl|]. split.
    + eapply linv_pure; eauto.
      * apply F2_app; auto. apply (ok_zero OK).
      * cbn. rewrite (Forall2_len _ _ _ Cs). auto.
    + left. econstructor; eauto.
  - (* thaw *)
    rewrite H in Ti. destruct (mth i) as [[k' ph]|] eqn:Ei; [|contradiction]. cbn in Ti. destruct Ti as (<- & Ck & Ti). destruct ph; try contradiction.
    destruct (Forall2_nth _ _ _ _ _ Cs H0) as (v & En & Cr).
    exists F, (put O i none), (mkM (mcs ++ [(p, vthaw v)]) mss (put mth i (Some (KThaw s, MReply (RHandle (length mcs)))))).
    split; [apply incl_refl|]. split; [apply rely_refl|]. split.
    + eapply linv_pure; eauto.
      * apply grows_app.
      * apply F2_app; auto. split; auto. cbn [snd]. eapply (ok_thaw OK); eauto.
      * cbn. rewrite (Forall2_len _ _ _ Cc). auto.
    + left. econstructor; eauto.
  - (* read *)
    rewrite H in Ti. destruct (mth i) as [[k' ph]|] eqn:Ei; [|contradiction]. cbn in Ti. destruct Ti as (<- & Ck & Ti). destruct ph; try contradiction.
    destruct (receiver_rel _ _ _ _ _ _ _ (cells_vals _ _ _ _ Cc) Cs H0) as (w & Ew & Rw).
    destruct (arguments_rel _ _ _ _ _ Cs H1) as (ws & Ews & Rws).
    exists F, (put O i none), (mkM mcs mss (put mth i (Some (KRead x r a, MRead (rfun r w ws))))). split; [apply incl_refl|]. split; [apply rely_refl|]. split.
    + eapply linv_pure; eauto. cbn. split; auto. split; auto. split; [apply (ok_rown OK)|].
      eapply wpi_weaken; [apply rpost_good|apply none_both|]. eapply (ok_read OK); eauto. eapply arguments_length; eauto.
    + left. econstructor; eauto.
  - (* reading *)
    rewrite H in Ti. destruct (mth i) as [[k' ph]|] eqn:Ei; [|contradiction]. cbn in Ti. destruct Ti as (<- & Ck & Ti). destruct ph; try contradiction.
    destruct Ti as (Ow & Wp). assert (RF : rely F h h').
    { destruct (pstep_own h m h' m' F (O i) _ H0 dF (dO i) Ow ltac:(apply rpost_good) Wp) as (Oi & I1 & D1 & (Ow1 & Yw1) & Wp1 & N1 & L1 & K1). split; auto. intros z Hz; apply K1; eauto. }
    destruct (linv_run rr sr F O h cs ss th mcs mss mth i h' m m' _ (Some (k, Reading m')) _ L H0 Ow ltac:(apply rpost_good) Wp Ei) as (Oi & L').
    { intros Oi Ow' Yw' Wp' _. cbn. auto. }
    exists F, (put O i Oi), (mkM mcs mss mth). split; [apply PP|]. split; auto.
  - (* read_done *)
    rewrite H in Ti. destruct (mth i) as [[k' ph]|] eqn:Ei; [|contradiction]. cbn in Ti. destruct Ti as (<- & Ck & Ti). destruct ph; try contradiction.
    destruct Ti as (Ow & Wp). cbn in Wp. unfold rpost in Wp. subst r0.
    exists F, (put O i none), (mkM mcs mss (put mth i (Some (k, MReply (reply_of r))))). split; [apply incl_refl|]. split; [apply rely_refl|]. split.
    + eapply linv_pure; eauto. cbn. auto.
    + left. econstructor; eauto.
  - (* build *)
    rewrite H in Ti. destruct (mth i) as [[k' ph]|] eqn:Ei; [|contradiction]. cbn in Ti. destruct Ti as (<- & Ck & Ti). destruct ph; try contradiction.
    destruct (arguments_rel _ _ _ _ _ Cs H0) as (ws & Ews & Rws).
    exists F, (put O i none), (mkM mcs mss (put mth i (Some (KBuild b a, MBuild ws)))). split; [apply incl_refl|]. split; [apply rely_refl|]. split.
    + eapply linv_pure; eauto. cbn. split; auto. split; auto. exists b, a. split; auto. split; [apply (ok_bown OK)|].
      eapply wpi_weaken; [apply bpost_good|apply none_both|]. eapply (ok_build OK); eauto. eapply arguments_length; eauto.
    + left. econstructor; eauto.
  - (* building *)
    rewrite H in Ti. destruct (mth i) as [[k' ph]|] eqn:Ei; [|contradiction]. cbn in Ti. destruct Ti as (<- & Ck & Ti). destruct ph; try contradiction.
    destruct Ti as (b & a & -> & Ow & Wp). assert (RF : rely F h h').
    { destruct (pstep_own h m h' m' F (O i) _ H0 dF (dO i) Ow ltac:(apply bpost_good) Wp) as (Oi & I1 & D1 & (Ow1 & Yw1) & Wp1 & N1 & L1 & K1). split; auto. intros z Hz; apply K1; eauto. }
    destruct (linv_run rr sr F O h cs ss th mcs mss mth i h' m m' _ (Some (KBuild b a, Building e m')) _ L H0 Ow ltac:(apply bpost_good) Wp Ei) as (Oi & L').
    { intros Oi Ow' Yw' Wp' _. cbn. split; auto. split; auto. exists b, a. auto. }
    exists F, (put O i Oi), (mkM mcs mss mth). split; [apply PP|]. split; auto.
  - (* build_done *)
    rewrite H in Ti. destruct (mth i) as [[k' ph]|] eqn:Ei; [|contradiction]. cbn in Ti. destruct Ti as (<- & Ck & Ti). destruct ph; try contradiction.
    destruct Ti as (b & a & -> & Ow & Wp). cbn in Wp. destruct Wp as (R & Hb & Wp). destruct R as [v| |]; try contradiction.
    exists (both F (O i)), (put O i none), (mkM mcs (mss ++ [v]) (put mth i (Some (KBuild b a, MReply (RSnap (length mss)))))).
    split; [intros z Hz; left; auto|]. split; [apply PQ|]. split.
    + eapply linv_publish; eauto.
      * eapply Forall2_mono; [|exact Cc]. intros x y (E1 & E2 & E3). split; auto. split; auto. eapply crep_mono; [exact E2|intros z Hz; left; auto|apply keeps_refl].
      * apply F2_app; auto. eapply Forall2_mono; [|exact Cs]. intros x y E2. eapply crep_mono; [exact E2|intros z Hz; left; auto|apply keeps_refl].
      * cbn. rewrite (Forall2_len _ _ _ Cs). auto.
    + left. econstructor; eauto.
  - (* build_panic *)
    rewrite H in Ti. destruct (mth i) as [[k' ph]|] eqn:Ei; [|contradiction]. cbn in Ti. destruct Ti as (<- & Ck & Ti). destruct ph; try contradiction.
    destruct Ti as (b & a & -> & Ow & Wp). cbn in Wp. destruct Wp as (R & Hb & Wp). destruct R as [v| |]; try contradiction.
    exists F, (put O i none), (mkM mcs mss (put mth i (Some (KBuild b a, MReply RPanic)))). split; [apply incl_refl|]. split; [apply rely_refl|]. split.
    + eapply linv_pure; eauto. cbn. auto.
    + left. econstructor; eauto.
  - (* build_stuck *)
    rewrite H in Ti. destruct (mth i) as [[k' ph]|] eqn:Ei; [|contradiction]. cbn in Ti. destruct Ti as (<- & Ck & Ti). destruct ph; try contradiction.
    destruct Ti as (b & a & -> & Ow & Wp). cbn in Wp. destruct Wp as (R & Hb & Wp). destruct R as [v| |]; try contradiction.
    exists F, (put O i none), (mkM mcs mss (put mth i (Some (KBuild b a, MReply RStuck)))). split; [apply incl_refl|]. split; [apply rely_refl|]. split.
    + eapply linv_pure; eauto. cbn. auto.
    + left. econstructor; eauto.
  - (* write_nil *)
    rewrite H in Ti. destruct (mth i) as [[k' ph]|] eqn:Ei; [|contradiction]. cbn in Ti. destruct Ti as (<- & Ck & Ti). destruct ph; try contradiction.
    exists F, (put O i none), (mkM mcs mss (put mth i (Some (KWrite None o a, MReply RPanic)))). split; [apply incl_refl|]. split; [apply rely_refl|]. split.
    + eapply linv_pure; eauto. cbn. auto.
    + left. econstructor; eauto.
  - (* old *)
    rewrite H in Ti. destruct (mth i) as [[k' ph]|] eqn:Ei; [|contradiction]. cbn in Ti. destruct Ti as (<- & Ck & Ti). destruct ph; try contradiction.
    destruct (cellrel_ptr _ _ _ _ _ _ _ Cc H0) as (v & En & Cr & Wk).
    exists F, (put O i none), (mkM mcs mss (put mth i (Some (KWrite (Some c) o a, MLoaded p v)))). split; [apply incl_refl|]. split; [apply rely_refl|]. split.
    + eapply linv_pure; eauto. cbn. split; auto. split; auto. split; auto. exists c, o, a. split; auto. split; [apply Cr|]. split; [exists p, v; auto|]. intros _ _. exists p, v. auto.
    + left. econstructor; eauto.
  - (* mutator *)
    rewrite H in Ti. destruct (mth i) as [[k' ph]|] eqn:Ei; [|contradiction]. cbn in Ti. destruct Ti as (<- & Ck & Ti). destruct ph; try contradiction. destruct Ti as (<- & c0 & o0 & a0 & Ek & Ro & Eo & Bo).
    injection Ek as <- <- <-. destruct (cellrel_ptr _ _ _ _ _ _ _ Cc H0) as (v & En & Cr & Wk). destruct (arguments_rel _ _ _ _ _ Cs H1) as (ws & Ews & Rws).
    exists F, (put O i none), (mkM mcs mss (put mth i (Some (KWrite (Some c) o a, MMut old vo v ws)))). split; [apply incl_refl|]. split; [apply rely_refl|]. split.
    + eapply linv_pure; eauto. cbn. split; auto. split; auto. split; auto. exists c, o, a. split; auto. split; [auto|]. split; [apply Cr|]. split; [exists p, v; auto|].
      split; [apply (ok_wown OK)|]. split.
      * eapply wpi_weaken; [apply wpost_good|apply none_both|]. eapply (ok_write OK); eauto; [|eapply arguments_length; eauto]. destruct Cr as (_ & Ce & _). cbn in Ce. rewrite <- Ce. exact Wk.
      * assert (Wv : wok (ve v)) by (destruct Cr as (_ & Ce & _); cbn in Ce; rewrite <- Ce; exact Wk).
        assert (BE : rr = true -> sr = true -> (mu c v <= mu c vo)%nat) by (intros E1 E0; destruct (Bo E1 E0) as (p1 & v1 & E2 & E3); rewrite En in E2; injection E2 as <- <-; exact E3).
        intros E0. exists p. split; [apply Cr|]. split.
        { intros E1. split; auto. destruct (HY E1 E0 c o a Ck) as (Y1 & b & Y2 & Y3). split; [apply Y1; [apply Cr|exact Wv]|].
          assert (N0 : exists n0, forall l, p = Some l -> nth_error h l = Some n0).
          { destruct p as [l|]; [|exists (mkH (mkPrefix 0 0) None 0 0 false None None); discriminate].
            destruct Cr as (Cr & _). cbn [fst] in Cr. destruct (vt v); [discriminate|]. destruct Cr as (i0 & k0 & k1 & Ei0 & _ & Hn & _). injection Ei0 as <-.
            eexists. intros l0 [= <-]. exact Hn. }
          destruct N0 as [n0 N0]. exists b, n0. split; auto. split; [exact (Y2 (p, e) vs n0)|]. intros Eb. apply Y3; [exact Eb|apply Cr]. }
        destruct (ptr_dec old p) as [->|Np]; [left; reflexivity|]. right. destruct rr; [|exfalso; apply Np; symmetry; auto].
        split; auto. exists p, v. auto.
    + left. econstructor; eauto.
  - (* mutate *)
    rewrite H in Ti. destruct (mth i) as [[k' ph]|] eqn:Ei; [|contradiction]. cbn in Ti. destruct Ti as (<- & Ck & Ti). destruct ph; try contradiction.
    destruct Ti as (<- & c & o & a & -> & (Ro & Eo) & Hv & He & Ow & Wp & Rp). assert (RF : rely F h h').
    { destruct (pstep_own h m h' m' F (O i) _ H0 dF (dO i) Ow ltac:(apply wpost_good) Wp) as (Oi & I1 & D1 & (Ow1 & Yw1) & Wp1 & N1 & L1 & K1). split; auto. intros z Hz; apply K1; eauto. }
    destruct (linv_run rr sr F O h cs ss th mcs mss mth i h' m m' _ (Some (KWrite (Some c) o a, Mutating old m')) _ L H0 Ow ltac:(apply wpost_good) Wp Ei) as (Oi & L').
    { intros Oi Ow' Yw' Wp' _. cbn. split; auto. split; auto. split; auto. exists c, o, a. split; auto. split; [split; [eapply repr_rely; eauto|auto]|]. split; auto. split; auto. split; auto. split; auto.
      intros E0. destruct (Rp E0) as (p0 & R0 & Y & D). exists p0. split; [eapply repr_rely; eauto|]. split; [|exact D].
      intros E1. destruct (Y E1) as (Y1 & Y2 & b & n0 & Y3 & Y4 & Y5). split; auto. split; auto. exists b, n0. split; [|split; auto].
      - intros l0 El. destruct RF as [_ RF]. rewrite RF; auto. pose proof (repr_known F h p0 _ R0) as Kn. rewrite El in Kn. exact Kn.
      - apply Yw'; auto. intros l0 n El0 Hn. rewrite (Y3 l0 Hn) in El0. congruence. }
    exists F, (put O i Oi), (mkM mcs mss mth). split; [apply PP|]. split; auto.
  - (* write_panic *)
    rewrite H in Ti. destruct (mth i) as [[k' ph]|] eqn:Ei; [|contradiction]. cbn in Ti. destruct Ti as (<- & Ck & Ti). destruct ph; try contradiction.
    destruct Ti as (<- & c & o & a & -> & (Ro & Eo) & Hv & He & Ow & Wp & Rp). cbn in Wp. destruct (wfun o v0 vs) as [[? ?]| |] eqn:Ew; try contradiction.
    exists F, (put O i none), (mkM mcs mss (put mth i (Some (KWrite (Some c) o a, MReply RPanic)))). split; [apply incl_refl|]. split; [apply rely_refl|]. split.
    + eapply linv_pure; eauto. cbn. auto.
    + left. econstructor; eauto.
  - (* write_stuck *)
    rewrite H in Ti. destruct (mth i) as [[k' ph]|] eqn:Ei; [|contradiction]. cbn in Ti. destruct Ti as (<- & Ck & Ti). destruct ph; try contradiction.
    destruct Ti as (<- & c & o & a & -> & (Ro & Eo) & Hv & He & Ow & Wp & Rp). cbn in Wp. destruct (wfun o v0 vs) as [[? ?]| |] eqn:Ew; try contradiction.
    exists F, (put O i none), (mkM mcs mss (put mth i (Some (KWrite (Some c) o a, MReply RStuck)))). split; [apply incl_refl|]. split; [apply rely_refl|]. split.
    + eapply linv_pure; eauto. cbn. auto.
    + left. econstructor; eauto.
  - (* keep_fail *)
    rewrite H in Ti. destruct (mth i) as [[k' ph]|] eqn:Ei; [|contradiction]. cbn in Ti. destruct Ti as (<- & Ck & Ti). destruct ph; try contradiction.
    destruct Ti as (<- & c & o & a & -> & (Ro & Eo) & Hv & He & Ow & Wp & Rp). cbn in Wp. destruct (wfun o v0 vs) as [[[v'|] out']| |] eqn:Ew; try contradiction. subst out'.
    exists F, (put O i none), (mkM mcs mss (put mth i (Some (KWrite (Some c) o a, MReply (ROut out))))). split; [apply incl_refl|]. split; [apply rely_refl|]. split.
    + eapply linv_pure; eauto. cbn. auto.
    + left. econstructor; eauto.
  - (* keep *)
    rewrite H in Ti. destruct (mth i) as [[k' ph]|] eqn:Ei; [|contradiction]. cbn in Ti. destruct Ti as (<- & Ck & Ti). destruct ph; try contradiction.
    destruct Ti as (<- & c & o & a & -> & (Ro & Eo) & Hv & He & Ow & Wp & Rp). cbn in Wp. destruct (wfun o v0 vs) as [[[v'|] out']| |] eqn:Ew; try contradiction. destruct Wp as [<- (R1 & R2 & R3)].
    exists F, (put O i none), (mkM mcs mss (put mth i (Some (KWrite (Some c) o a, MReply (ROut out))))). split; [apply incl_refl|]. split; [apply rely_refl|]. split.
    + eapply linv_pure; eauto. cbn. auto.
    + assert (VO : v' = vo).
      { cbn in R1, R2. apply (ok_ext OK); [eapply repr_det; eauto|]. rewrite <- R2. eapply ext_det; eauto. }
      left. eapply m_keep; eauto. intros E0. cbn in R1, R2. apply (ok_ext OK); [|auto].
      destruct (Rp E0) as (p0 & R0 & Y & D). assert (old = p0) as ->; [|eapply repr_det; eauto].
      destruct D as [->|(E1 & _)]; auto. destruct (Y E1) as (Y1 & Y2 & b & n0 & Y3 & Y4 & Y5). unfold yields in Y4. cbn in Y4.
      destruct (Y4 old eq_refl) as [->|[(l & -> & Ol)|(Eb & Np & K)]]; auto; exfalso.
      * exact (FO i l (repr_known _ _ _ _ Ro) Ol).
      * pose proof (Y5 Eb v' R3 (kid_ptr _ _ _ _ _ _ _ _ R0 Y3 Np K R1)) as X. subst v'. lia.
  - (* swap *)
    rewrite H in Ti. destruct (mth i) as [[k' ph]|] eqn:Ei; [|contradiction]. cbn in Ti. destruct Ti as (<- & Ck & Ti). destruct ph; try contradiction.
    destruct Ti as (<- & c1 & o1 & a1 & Ek & (Ro & Eo) & Hv & He & Ow & Wp & Rp). injection Ek as <- <- <-.
    cbn in Wp. destruct (wfun o v0 vs) as [[[v'|] out']| |] eqn:Ew; try contradiction. destruct Wp as [<- (R1 & R2 & R3)].
    destruct (cellrel_ptr _ _ _ _ _ _ _ Cc H1) as (v1 & En & (Cr1 & Cr2 & Cr3) & Wk). cbn in Cr1, Cr2, R1, R2.
    destruct He as (p2 & v2 & En2 & He). rewrite En in En2. injection En2 as <- <-.
    assert (VO : v1 = vo).
    { apply (ok_ext OK); [eapply repr_det; eauto|]. eapply ext_det; [|exact Eo]. exists old, v1. auto. }
    assert (SAME : sr = true -> v1 = v0 /\ forall p0, repr F h p0 (vt v0) -> (old = p0 \/ rr = true /\ dead mcs c old vo) -> old = p0).
    { intros E0. assert (Q : forall p0, repr F h p0 (vt v0) -> (old = p0 \/ rr = true /\ dead mcs c old vo) -> old = p0).
      { intros p0 R0 [->|(E1 & q & w & Eq & Nq1 & Nq2)]; auto. exfalso. rewrite En in Eq. injection Eq as <- <-. subst v1. destruct Nq2; [congruence|lia]. }
      split; auto. destruct (Rp E0) as (p0 & R0 & Y & D). pose proof (Q p0 R0 D) as <-. apply (ok_ext OK); [eapply repr_det; eauto|congruence]. }
    assert (NEW : rr = true -> sr = true -> (mu c v' <= mu c v1)%nat /\ forall old1, known F old1 -> old <> old1 -> new <> old1 \/ (mu c v' < mu c v1)%nat).
    { intros E1 E0. destruct (SAME E0) as [S1 S2]. destruct (Rp E0) as (p0 & R0 & Y & D). pose proof (S2 p0 R0 D) as <-. subst v0.
      destruct (Y E1) as (Y1 & Y2 & b & n0 & Y3 & Y4 & Y5). split; [eapply Y2; exact Ew|]. intros old1 Kn N1. unfold yields in Y4. cbn in Y4.
      destruct (Y4 new eq_refl) as [->|[(l & -> & Ol)|(Eb & Np & K)]]; auto.
      - left. intros <-. exact (FO i l Kn Ol).
      - right. apply (Y5 Eb v' R3 (kid_ptr _ _ _ _ _ _ _ _ R0 Y3 Np K R1)). }
    exists (both F (O i)), (put O i none), (mkM (set_nth mcs c (new, v')) mss (put mth i (Some (KWrite (Some c) o a, MReply (ROut out))))).
    split; [intros z Hz; left; auto|]. split; [apply PQ|]. split.
    + eapply linv_publish; eauto.
      * split.
        -- intros c2 e2 (p2 & v2 & En2 & He2). destruct (Nat.eq_dec c2 c) as [->|N].
           ++ rewrite En in En2. injection En2 as <- <-. exists new, v'. split; [apply set_nth_same; apply nth_error_Some; congruence|congruence].
           ++ exists p2, v2. split; auto. rewrite set_nth_other by auto. auto.
        -- intros E1 E0. destruct (NEW E1 E0) as [N1 N2]. split.
           ++ intros c2 vo2 (p2 & v2 & En2 & B2). destruct (Nat.eq_dec c2 c) as [->|N].
              ** exists new, v'. split; [apply set_nth_same; apply nth_error_Some; congruence|]. rewrite En in En2. injection En2 as <- <-. lia.
              ** exists p2, v2. split; auto. rewrite set_nth_other by auto. auto.
           ++ intros c2 old2 vo2 Kn (p2 & v2 & En2 & B2 & D2). destruct (Nat.eq_dec c2 c) as [->|N].
              ** exists new, v'. split; [apply set_nth_same; apply nth_error_Some; congruence|]. rewrite En in En2. injection En2 as <- <-. split; [lia|].
                 destruct D2 as [D2|D2]; [|right; lia]. destruct (N2 old2 Kn D2); [auto|right; lia].
              ** exists p2, v2. split; auto. rewrite set_nth_other by auto. auto.
      * apply Forall2_set_nth.
        -- eapply Forall2_mono; [|exact Cc]. intros x y (E1 & E2 & E3). split; auto. split; auto. eapply crep_mono; [exact E2|intros z Hz; left; auto|apply keeps_refl].
        -- split; auto. split; [|exact Wk]. split; [exact R1|]. split; [|exact R3]. cbn. congruence.
      * eapply Forall2_mono; [|exact Cs]. intros x y E2. eapply crep_mono; [exact E2|intros z Hz; left; auto|apply keeps_refl].
      * cbn. auto.
    + left. eapply m_swap; eauto. intros E0. apply (SAME E0).
  - (* conflict *)
    rewrite H in Ti. destruct (mth i) as [[k' ph]|] eqn:Ei; [|contradiction]. cbn in Ti. destruct Ti as (<- & Ck & Ti). destruct ph; try contradiction.
    destruct Ti as (<- & c1 & o1 & a1 & Ek & (Ro & Eo) & Hv & He & Ow & Wp & Rp). injection Ek as <- <- <-.
    cbn in Wp. destruct (wfun o v0 vs) as [[[v'|] out']| |] eqn:Ew; try contradiction. destruct Wp as [<- (R1 & R2 & R3)].
    destruct (cellrel_ptr _ _ _ _ _ _ _ Cc H1) as (v1 & En & Cr & Wk).
    exists F, (put O i none), (mkM mcs mss (put mth i (Some (KWrite (Some c) o a, MReply RPanic)))). split; [apply incl_refl|]. split; [apply rely_refl|]. split.
    + eapply linv_pure; eauto. cbn. auto.
    + left. eapply m_conflict; eauto.
Qed.

Notation cexec := (cexec wprog rprog bprog zeroE bext thawE call_ok).
Notation cexec1 := (cexec1 wprog rprog bprog zeroE bext thawE call_ok).
Notation mexec := (mexec wfun rfun bfun vzero vnew vthaw call_ok).
Notation aexec := (aexec (effect wfun rfun bfun vzero vnew vthaw) vzero call_ok).
Notation aexec1 := (aexec1 (effect wfun rfun bfun vzero vnew vthaw) vzero call_ok).
Inductive cex (rr one : bool) : list (label call Out) -> cstate -> Prop :=
| cx_init : cex rr one [] (c_init zeroE)
| cx_step ls l st st' : cex rr one ls st -> cstep rr st l st' -> (one = true -> one_writer st') -> cex rr one (ls ++ [l]) st'.
Lemma cexec_cex rr ls st : cexec rr ls st -> cex rr false ls st.
Proof. induction 1; econstructor; eauto. discriminate. Qed.

Lemma linv_init rr sr : linv rr sr none (fun _ => none) (c_init zeroE) (m_init vzero).
Proof.
  constructor; cbn.
  - intros i [].
  - intros i j [].
  - intros i x [].
  - intros i j x _ [].
  - constructor.
  - constructor; [|constructor]. apply (ok_zero OK).
  - intros i. exact I.
Qed.
Lemma linv_call rr sr F O st m i : linv rr sr F O st m -> option_map fst (c_threads st i) = option_map fst (m_threads m i).
Proof.
  intros L. pose proof (li_threads _ _ _ _ _ _ L i) as H. destruct (c_threads st i) as [[k ph]|], (m_threads m i) as [[k' mph]|]; cbn in *; try contradiction; auto.
  destruct H as (-> & _). reflexivity.
Qed.
Lemma linv_one rr sr F O st m : linv rr sr F O st m -> one_writer st -> m_one m.
Proof.
  intros L H i j c o a o' a' p p' Hi Hj. pose proof (linv_call _ _ _ _ _ _ i L) as Ei. pose proof (linv_call _ _ _ _ _ _ j L) as Ej.
  rewrite Hi in Ei. rewrite Hj in Ej. cbn in Ei, Ej.
  destruct (c_threads st i) as [[k ph]|] eqn:Ci; [|discriminate]. destruct (c_threads st j) as [[k' ph']|] eqn:Cj; [|discriminate].
  cbn in Ei, Ej. injection Ei as ->. injection Ej as ->. eapply H; eexists; eauto.
Qed.
Lemma low_all rr sr one ls st : (rr = true -> sr = true -> wyields) -> cex rr one ls st -> exists ms m F O, mexec sr one ms m /\ visible ms = visible ls /\ linv rr sr F O st m.
Proof.
  intros HY. induction 1 as [|ls l st st' Hx (ms & m & F & O & Hm & Ev & L) Hs Ho].
  - exists [], (m_init vzero), none, (fun _ => none). split; [constructor|]. split; auto. apply linv_init.
  - destruct (low_step rr sr F O st m l st' HY L Hs) as (F' & O' & m' & _ & _ & L' & [Sm|[-> ->]]).
    + exists (ms ++ [l]), m', F', O'. split; [econstructor; eauto|split; auto].
      * intros E1. eapply linv_one; eauto.
      * rewrite !visible_app, Ev. reflexivity.
    + exists ms, m, F', O'. split; auto. split; auto. rewrite visible_app. cbn. rewrite app_nil_r. auto.
Qed.

Lemma no_true {P : Prop} : false = true -> P. Proof. discriminate. Qed.
(* without the re-read race, or with one writer: atomic *)
Lemma low_atomic_gen rr ls st : (rr = true -> wyields) -> cexec rr ls st -> exists als a, aexec als a /\ visible als = visible ls /\
  exists S, Forall2 (crep S (c_heap st)) (c_cells st) (a_cells a) /\ Forall2 (crep S (c_heap st)) (c_snaps st) (a_snaps a).
Proof.
  intros HY H. apply cexec_cex in H. destruct (low_all _ true _ _ _ (fun E _ => HY E) H) as (ms & m & F & O & Hm & Ev & L).
  destruct (mid_atomic _ _ _ _ _ _ _ _ _ _ Hm) as (als & a & Ha & Ea & Ec & Es). exists als, a.
  split; [apply aex_aexec; exact Ha|]. split; [congruence|]. exists F. rewrite Ec, Es. split; [eapply cells_vals|]; apply L.
Qed.
Lemma linv_one_rev rr sr F O st m : linv rr sr F O st m -> m_one m -> one_writer st.
Proof.
  intros L H i j c o a o' a' [p Hi] [p' Hj]. pose proof (linv_call _ _ _ _ _ _ i L) as Ei. pose proof (linv_call _ _ _ _ _ _ j L) as Ej.
  rewrite Hi in Ei. rewrite Hj in Ej. cbn in Ei, Ej.
  destruct (m_threads m i) as [[k ph]|] eqn:Ci; [|discriminate]. destruct (m_threads m j) as [[k' ph']|] eqn:Cj; [|discriminate].
  cbn in Ei, Ej. injection Ei as <-. injection Ej as <-. eapply H; eauto.
Qed.

End Mu.

Notation cstep := (cstep wprog rprog bprog zeroE bext thawE call_ok).
Notation mstep := (mstep wfun rfun bfun vzero vnew vthaw call_ok).
Notation cstate := (@cstate T E WOp ROp BOp Out).
Notation cexec := (cexec wprog rprog bprog zeroE bext thawE call_ok).
Notation cexec1 := (cexec1 wprog rprog bprog zeroE bext thawE call_ok).
Notation mexec := (mexec wfun rfun bfun vzero vnew vthaw call_ok).
Notation aexec := (aexec (effect wfun rfun bfun vzero vnew vthaw) vzero call_ok).
Notation aexec1 := (aexec1 (effect wfun rfun bfun vzero vnew vthaw) vzero call_ok).
Let flat : nat -> V -> nat := fun _ _ => O.
Theorem low_atomic ls st : cexec false ls st -> exists als a, aexec als a /\ visible als = visible ls /\
  exists S, Forall2 (crep S (c_heap st)) (c_cells st) (a_cells a) /\ Forall2 (crep S (c_heap st)) (c_snaps st) (a_snaps a).
Proof. apply (low_atomic_gen flat). exact no_true. Qed.
(* with it, when every stored root is new or smaller *)
Theorem low_atomic2 mu ls st : wyields mu -> cexec true ls st -> exists als a, aexec als a /\ visible als = visible ls /\
  exists S, Forall2 (crep S (c_heap st)) (c_cells st) (a_cells a) /\ Forall2 (crep S (c_heap st)) (c_snaps st) (a_snaps a).
Proof. intros HY. apply (low_atomic_gen mu). auto. Qed.
(* with it, when the contents of a handle only ever grow (in some order, which may
   depend on the handle) *)
Section Growth.
Variable le : nat -> V -> V -> Prop.
Hypothesis le_refl : forall c v, le c v v.
Hypothesis le_trans : forall c u v w, le c u v -> le c v w -> le c u w.
Hypothesis le_antisym : forall c u v, le c u v -> le c v u -> u = v.
Hypothesis write_grows : forall c o a v vs v' out, call_ok (KWrite (Some c) o a) -> vok v -> Forall vok vs -> length a = length vs ->
  wfun o v vs = Ok (Some v', out) -> le c v v'.
Definition over (cs : list (ptr * V)) (c : nat) (v : V) : Prop := exists p v1, nth_error cs c = Some (p, v1) /\ le c v v1.
Definition gphase (cs : list (ptr * V)) (x : option (call * mphase)) : Prop :=
  match x with
  | Some (k, MLoaded old vo) => match k with KWrite (Some c) o a => over cs c vo | _ => True end
  | Some (k, MMut old vo v vs) => match k with KWrite (Some c) o a => le c vo v /\ over cs c v /\ vok v /\ Forall vok vs /\ length a = length vs | _ => True end
  | _ => True
  end.
Definition ginv (m : mstate) : Prop := forall i, gphase (m_cells m) (m_threads m i).
Lemma gphase_mono cs cs' x : (forall c v, over cs c v -> over cs' c v) -> gphase cs x -> gphase cs' x.
Proof. intros H. destruct x as [[[|[c|] o a| | | |] []]|]; cbn; auto. intros (A & B & C). auto. Qed.
Lemma ginv_put cs ss th ss' i x cs' : ginv (mkM cs ss th) -> (forall c v, over cs c v -> over cs' c v) -> gphase cs' x -> ginv (mkM cs' ss' (put th i x)).
Proof.
  intros G H X j. cbn. destruct (Nat.eq_dec j i) as [->|N]; [rewrite put_same; exact X|]. rewrite put_other by auto. eapply gphase_mono; [exact H|]. apply G.
Qed.
Lemma over_app cs l c v : over cs c v -> over (cs ++ l) c v.
Proof. intros (p & v1 & H & K). exists p, v1. split; auto. apply nth_app_some. auto. Qed.
Lemma grow_step rr F O st m l m' : linv flat rr false F O st m -> ginv m -> mstep false m l m' -> mstep true m l m' /\ ginv m'.
Proof.
  intros L G Hs.
  assert (CV : forall c p v, nth_error (m_cells m) c = Some (p, v) -> vok v).
  { intros c p v Hn. destruct (Forall2_nth' _ _ _ _ _ (li_cells _ _ _ _ _ _ _ L) Hn) as (x & _ & _ & (_ & _ & Hv) & _). exact Hv. }
  assert (SV : forall a vs, arguments (m_snaps m) a = Some vs -> Forall vok vs).
  { intros a. induction a as [|s0 a IH]; intros vs Ha; cbn [arguments] in Ha; [injection Ha as <-; constructor|].
    destruct (nth_error (m_snaps m) s0) as [w|] eqn:Es; [|discriminate]. destruct (arguments (m_snaps m) a); [|discriminate]. injection Ha as <-. constructor; auto.
    destruct (Forall2_nth' _ _ _ _ _ (li_snaps _ _ _ _ _ _ _ L) Es) as (x & _ & (_ & _ & Hv)). exact Hv. }
  assert (CK : forall i k ph, m_threads m i = Some (k, ph) -> call_ok k).
  { intros i k ph Hi. pose proof (li_threads _ _ _ _ _ _ _ L i) as Ti. rewrite Hi in Ti. destruct (c_threads st i) as [[k' ph']|]; [|contradiction].
    cbn in Ti. destruct Ti as (-> & Ck & _). exact Ck. }
  destruct Hs; pose proof (G i) as Gi; cbn [m_cells m_snaps m_threads] in *;
    try (split; [econstructor; eauto; fail|]; eapply ginv_put; [exact G| |exact Logic.I]; auto using over_app; fail).
  - split; [econstructor; eauto|]. eapply ginv_put; [exact G|auto|exists p, v; auto].
  - split; [econstructor; eauto|]. eapply ginv_put; [exact G|auto|]. rewrite H in Gi. cbn in Gi. destruct Gi as (p1 & v1 & E1 & E2).
    rewrite H0 in E1. injection E1 as <- <-. cbn. split; auto. split; [exists p, v; auto|]. split; [eauto|]. split; [eauto|]. eapply arguments_length; eauto.
  - (* keep *)
    rewrite H in Gi. cbn in Gi. destruct Gi as (A1 & A2 & A3 & A4 & A5). pose proof (write_grows _ _ _ _ _ _ _ (CK _ _ _ H) A3 A4 A5 H0) as Gw.
    subst v'. pose proof (le_antisym _ _ _ A1 Gw) as ->. split; [eapply m_keep; eauto|]. eapply ginv_put; [exact G|auto|exact Logic.I].
  - (* swap *)
    rewrite H in Gi. cbn in Gi. destruct Gi as (A1 & (p1 & v2 & E1 & A2) & A3 & A4 & A5). pose proof (write_grows _ _ _ _ _ _ _ (CK _ _ _ H) A3 A4 A5 H0) as Gw.
    rewrite H1 in E1. injection E1 as <- <-. subst v1. pose proof (le_antisym _ _ _ A1 A2) as ->.
    split; [eapply m_swap; eauto|]. eapply ginv_put; [exact G| |exact Logic.I].
    intros c2 w (p2 & v2 & E2 & A). destruct (Nat.eq_dec c2 c) as [->|N].
    + rewrite H1 in E2. injection E2 as <- <-. exists new, v'. split; [apply set_nth_same; apply nth_error_Some; congruence|eauto].
    + exists p2, v2. split; auto. rewrite set_nth_other by auto. auto.
Qed.
Theorem low_atomic3 rr ls st : cexec rr ls st -> exists als a, aexec als a /\ visible als = visible ls /\
  exists S, Forall2 (crep S (c_heap st)) (c_cells st) (a_cells a) /\ Forall2 (crep S (c_heap st)) (c_snaps st) (a_snaps a).
Proof.
  intros H.
  assert (X : exists ms m F O, mexec true false ms m /\ visible ms = visible ls /\ linv flat rr false F O st m /\ ginv m).
  { apply cexec_cex in H. induction H as [|ls l st st' Hx (ms & m & F & O & Hm & Ev & L & G) Hs _].
    - exists [], (m_init vzero), none, (fun _ => none). split; [constructor|]. split; auto. split; [apply linv_init|]. intros i. exact Logic.I.
    - destruct (low_step flat rr false F O st m l st' (fun _ => no_true) L Hs) as (F' & O' & m' & _ & _ & L' & [Sm|[-> ->]]).
      + destruct (grow_step _ _ _ _ _ _ _ L G Sm) as [Sm' G']. exists (ms ++ [l]), m', F', O'. split; [econstructor; eauto; discriminate|]. split; auto.
        rewrite !visible_app, Ev. reflexivity.
      + exists ms, m, F', O'. split; auto. split; auto. rewrite visible_app. cbn. rewrite app_nil_r. auto. }
  destruct X as (ms & m & F & O & Hm & Ev & L & _).
  destruct (mid_atomic _ _ _ _ _ _ _ _ _ _ Hm) as (als & a & Ha & Ea & Ec & Es). exists als, a.
  split; [apply aex_aexec; exact Ha|]. split; [congruence|]. exists F. rewrite Ec, Es. split; [eapply cells_vals|]; apply L.
Qed.
End Growth.
(* with one writer nobody changes the root between its two loads *)
Definition loaded_ok (st : cstate) : Prop :=
  forall i c o a old, c_threads st i = Some (KWrite (Some c) o a, Loaded old) -> exists e, nth_error (c_cells st) c = Some (old, e).
Lemma one_loaded ls st : cexec1 ls st -> loaded_ok st /\ one_writer st /\ cex false true ls st.
Proof.
  induction 1 as [|ls l st st' Hx (Lo & Ow & IH) Hs Ho].
  - split; [intros i c o a old H; discriminate|]. split; [|constructor]. intros i j c o a o' a' [p H]. discriminate.
  - assert (AP : forall X (l1 l2 : list X) n x, nth_error l1 n = Some x -> nth_error (l1 ++ l2) n = Some x).
    { intros. apply nth_app_some. auto. }
    assert (Hs' : cstep false st l st').
    { destruct Hs; try (econstructor; eauto; fail). eapply c_mutator; eauto. intros _.
      destruct (Lo i c o a old) as [e0 E0]; [exact H|]. cbn in E0. congruence. }
    assert (Lo' : loaded_ok st').
    { intros j c0 o0 a0 old0 Hj. destruct Hs; cbn [c_threads c_cells] in *; destruct (Nat.eq_dec j i) as [->|N];
        try rewrite put_same in Hj; try rewrite put_other in Hj by auto; try discriminate; try congruence;
        try (eapply Lo; cbn; eauto; fail);
        try (destruct (Lo j c0 o0 a0 old0 Hj) as [e0 E0]; cbn in E0; exists e0; apply AP; exact E0).
      - injection Hj as <- <- <- <-. eauto.
      - destruct (Lo j c0 o0 a0 old0 Hj) as [e0 E0]; cbn in E0. exists e0. rewrite set_nth_other; auto. intros <-.
        apply N. eapply (Ow j i); eexists; cbn; eauto. }
    split; auto. split; auto. econstructor; eauto.
Qed.
Theorem low_atomic1 ls st : cexec1 ls st -> exists als a, aexec1 als a /\ visible als = visible ls /\
  exists S, Forall2 (crep S (c_heap st)) (c_cells st) (a_cells a) /\ Forall2 (crep S (c_heap st)) (c_snaps st) (a_snaps a).
Proof.
  intros H. apply one_loaded in H. destruct H as (_ & _ & H). destruct (low_all flat _ true _ _ _ no_true H) as (ms & m & F & O & Hm & Ev & L).
  destruct (mid_atomic _ _ _ _ _ _ _ _ _ _ Hm) as (als & a & Ha & Ea & Ec & Es). exists als, a.
  split; [apply aex_aexec1; exact Ha|]. split; [congruence|]. exists F. rewrite Ec, Es. split; [eapply cells_vals|]; apply L.
Qed.

(* reads of an immutable value always give the same reply, even with racing writers *)
Theorem low_immutable_reads rr ls st s q a r1 r2 : cexec rr ls st ->
  In (KRead (Snap s) q a, r1) (completed (fun _ => None) ls) -> In (KRead (Snap s) q a, r2) (completed (fun _ => None) ls) -> r1 = r2.
Proof.
  intros H H1 H2. apply cexec_cex in H. destruct (low_all flat _ false _ _ _ (fun _ => no_true) H) as (ms & m & F & O & Hm & Ev & L).
  pose proof (rinv_all _ _ _ _ _ _ _ _ _ _ _ Hm) as [_ D _ _].
  rewrite <- completed_visible, <- Ev, completed_visible in H1, H2. apply D in H1. apply D in H2.
  destruct H1 as (v & vs & E1 & E2 & ->), H2 as (v' & vs' & E1' & E2' & ->). congruence.
Qed.

(* the nodes of an immutable value never change, even with racing writers *)
Inductive csteps (rr : bool) : cstate -> cstate -> Prop :=
| cs_refl st : csteps rr st st
| cs_more st l st' st'' : csteps rr st st' -> cstep rr st' l st'' -> csteps rr st st''.
Lemma cstep_snaps rr st l st' : cstep rr st l st' -> exists ext, c_snaps st' = c_snaps st ++ ext.
Proof. intros H. destruct H; cbn; try (exists []; rewrite app_nil_r; reflexivity); eexists; reflexivity. Qed.
Theorem low_immutable_nodes rr ls st st' s x : cexec rr ls st -> csteps rr st st' -> nth_error (c_snaps st) s = Some x ->
  nth_error (c_snaps st') s = Some x /\ exists v S S', crep S (c_heap st) x v /\ crep S' (c_heap st') x v.
Proof.
  intros H Hs Hn. apply cexec_cex in H. destruct (low_all flat _ false _ _ _ (fun _ => no_true) H) as (ms & m & F & O & Hm & Ev & L).
  destruct (Forall2_nth _ _ _ _ _ (li_snaps _ _ _ _ _ _ _ L) Hn) as (v & Ev' & Cr).
  assert (G : nth_error (c_snaps st') s = Some x /\ exists F' O' m', incl_s F F' /\ rely F (c_heap st) (c_heap st') /\ linv flat rr false F' O' st' m').
  { clear H Hm Ev. induction Hs as [st|st l st1 st2 Hs IH Hst].
    - split; auto. exists F, O, m. split; [apply incl_refl|]. split; [apply rely_refl|auto].
    - destruct (IH Hn L Cr) as (N1 & F1 & O1 & m1 & I1 & R1 & L1).
      destruct (low_step flat rr false F1 O1 st1 m1 l st2 (fun _ => no_true) L1 Hst) as (F2 & O2 & m2 & I2 & R2 & L2 & _).
      split.
      + destruct (cstep_snaps _ _ _ _ Hst) as [ext ->]. apply nth_app_some. auto.
      + exists F2, O2, m2. split; [eapply incl_trans; eauto|]. split; auto. eapply rely_trans; [exact R1|]. eapply rely_incl; eauto. }
  destruct G as (N1 & F' & O' & m' & I1 & R1 & L1). split; auto. exists v, F, F'. split; auto.
  eapply crep_mono; [exact Cr|exact I1|apply R1].
Qed.
End Low.
