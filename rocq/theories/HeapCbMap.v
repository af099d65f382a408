(* HeapCbMap.v - Map with a mapper that is a program *)
From Verif Require Export HeapCbProof.
From Verif Require Import HeapCost TableThm.
From Coq Require Import Arith ZifyBool ZifyNat ZifyN.
Local Open Scope prog_scope.

Section Calls.
Context {T K V St : Type}.
Variable mapper : K -> V -> St -> prog T (St * V).

(* every node that existed and is not one of X is as it was *)
Definition agree (X : nat -> Prop) (h h' : heap T) : Prop :=
  (length h <= length h')%nat /\ forall i, (i < length h)%nat -> ~ X i -> nth_error h' i = nth_error h i.

(* calls_made X h st log h' st': from heap h and state st, the mapper was called
   on the keys and values of log in this order and gave the answers in log; the
   last call left the state st'; between the calls nothing changed but the nodes
   X, none of which was allocated by one of the calls; the heap in the end is h' *)
Inductive calls_made (X : nat -> Prop) : heap T -> St -> list ((K * V) * V) -> heap T -> St -> Prop :=
| cm_nil h h' st : agree X h h' -> calls_made X h st [] h' st
| cm_cons h h0 h1 h' st st1 st' p v x log : agree X h h0 -> run (mapper p v st) h0 = (h1, Ok (st1, x)) ->
    (forall i, X i -> ~ (length h0 <= i < length h1)%nat) ->
    calls_made X h1 st1 log h' st' -> calls_made X h st (((p, v), x) :: log) h' st'.

Hypothesis CALM : forall p v s, calm (mapper p v s).

Lemma agree_refl X h : agree X h h. Proof. split; auto. Qed.
Lemma agree_trans X a b c : agree X a b -> agree X b c -> agree X a c.
Proof. intros [H1 H2] [K1 K2]. split; [lia|]. intros i Hi Xi. rewrite K2 by (auto; lia). auto. Qed.
Lemma grows_agree X (a b : heap T) : grows a b -> agree X a b.
Proof. intros [H1 H2]. split; auto. Qed.
Lemma cm_length X h st log h' st' : calls_made X h st log h' st' -> (length h <= length h')%nat.
Proof.
  induction 1 as [? ? ? [H _]|h h0 h1 h' st st1 st' p v x log [A _] R D C IH]; auto.
  pose proof (calm_grows (mapper p v st) h0 (CALM _ _ _)) as [G _]. rewrite R in G. cbn [fst] in G. lia.
Qed.
Lemma cm_agree X h st log h' st' : calls_made X h st log h' st' -> agree X h h'.
Proof.
  induction 1 as [? ? ? H|h h0 h1 h' st st1 st' p v x log A R D C IH]; auto.
  pose proof (calm_grows (mapper p v st) h0 (CALM _ _ _)) as G. rewrite R in G. cbn [fst] in G.
  eapply agree_trans; [exact A|]. eapply agree_trans; [apply grows_agree; exact G|exact IH].
Qed.
Lemma cm_before X a h st log h' st' : agree X a h -> calls_made X h st log h' st' -> calls_made X a st log h' st'.
Proof.
  intros A C. destruct C.
  - constructor. eapply agree_trans; eauto.
  - eapply cm_cons; [eapply agree_trans; [exact A|exact H]|exact H0|exact H1|exact C].
Qed.
Lemma cm_app X h st log h1 st1 log' h' st' : calls_made X h st log h1 st1 -> calls_made X h1 st1 log' h' st' -> calls_made X h st (log ++ log') h' st'.
Proof.
  induction 1 as [? ? ? A|h h0 h2 h3 st st2 st3 p v x log A R D C IH]; intros C'; cbn [app].
  - eapply cm_before; eauto.
  - econstructor; eauto.
Qed.
Lemma cm_weaken X (X' : nat -> Prop) h st log h' st' : calls_made X h st log h' st' ->
  (forall i, X i -> X' i) -> (forall i, X' i -> X i \/ (i < length h)%nat \/ (length h' <= i)%nat) -> calls_made X' h st log h' st'.
Proof.
  induction 1 as [h h' st A|h h0 h1 h' st st1 st' p v x log A R D C IH]; intros I J.
  - constructor. destruct A as [A1 A2]. split; auto.
  - pose proof (cm_length _ _ _ _ _ _ C) as L. destruct A as [A1 A2].
    pose proof (calm_grows (mapper p v st) h0 (CALM _ _ _)) as [G _]. rewrite R in G. cbn [fst] in G.
    eapply cm_cons; [split; [exact A1|intros i Hi Xi; apply A2; auto]|exact R| |apply IH; auto].
    + intros i Xi. destruct (J i Xi) as [Y|[Y|Y]]; [apply D; auto|lia|lia].
    + intros i Xi. destruct (J i Xi) as [Y|[Y|Y]]; auto. right. left. lia.
Qed.
End Calls.

(* the mapper that gives prepared answers and notes down what it is asked *)
Definition replay {K V} (p : K) (v : V) (s : list (K * V) * list V) : (list (K * V) * list V) * V :=
  ((fst s ++ [(p, v)], tl (snd s)), hd v (snd s)).

Section Map.
Context {T : Type}.
Variable ieq : option T -> option T -> res bool.
Hypothesis IEQ : ieq_ok ieq.
Context {St : Type}.
(* the values the mapper sees, and how they are kept in the nodes *)
Context {V : Type}.
Variables (ub : option T -> V) (bx : V -> option T).
Variable mapper : prefix -> V -> St -> prog T (St * V).
Hypothesis CALM : forall p v s, calm (mapper p v s).
Definition node_mapper (p : prefix) (d : option T) (s : St) : prog T (St * option T) :=
  '(s', v) <- mapper p (ub d) s ;; ret (s', bx v).
Definition node_replay (p : prefix) (d : option T) (s : list (prefix * V) * list V) : (list (prefix * V) * list V) * option T :=
  let (s', v) := replay p (ub d) s in (s', bx v).
Variable eq : comparator T.

Lemma run_NumNodes S (h : heap T) p t : repr S h p t -> run (h_NumNodes p) h = (h, Ok (NumNodes t)).
Proof. destruct t; cbn [repr]; [intros ->; reflexivity|]. intros (i & c0 & c1 & -> & _ & E & _). cbn. rewrite E. reflexivity. Qed.
Lemma run_height S (h : heap T) p t : repr S h p t -> run (h_height p) h = (h, Ok (height t)).
Proof. destruct t; cbn [repr]; [intros ->; reflexivity|]. intros (i & c0 & c1 & -> & _ & E & _). cbn. rewrite E. reflexivity. Qed.

Lemma run_modify {B} (h : heap T) z n f (k : unit -> prog T B) : nth_error h z = Some n ->
  run (pbind (modify z f) k) h = run (k tt) (Heap.upd h z (f n)).
Proof. intros E. cbn. rewrite E. reflexivity. Qed.

Lemma run_mutate S (h : heap T) z p d s hh a c0 c1 l' r' tl tr :
  nth_error h z = Some (mkH p d s hh a c0 c1) -> repr S h l' tl -> repr S h r' tr -> ~ S z ->
  exists n h', run (h_mutate (Some z) (fun n => modify n (w_kids l' r'))) h = (h', Ok (Some z)) /\
    (forall i, i <> z -> nth_error h' i = nth_error h i) /\ length h' = length h /\
    nth_error h' z = Some n /\ repr (plus1 z S) h' (Some z) (mk p d a tl tr).
Proof.
  intros E Rl Rr Nz. assert (Lz : (z < length h)%nat) by (apply nth_error_Some; congruence).
  unfold h_mutate. rewrite (run_modify _ _ _ _ _ E). set (h1 := Heap.upd h z _).
  assert (E1 : nth_error h1 z = Some (mkH p d s hh a l' r')) by (apply upd_same; auto).
  assert (K1 : forall i, i <> z -> nth_error h1 i = nth_error h i) by (intros; apply upd_other; auto).
  assert (KS : keeps S h h1) by (intros i Hi; apply K1; intros ->; auto).
  assert (Rl1 : repr S h1 l' tl) by (eapply repr_keep; [exact Rl|apply HeapOwn.incl_refl|exact KS]).
  assert (Rr1 : repr S h1 r' tr) by (eapply repr_keep; [exact Rr|apply HeapOwn.incl_refl|exact KS]).
  rewrite (run_load _ _ _ _ E1). cbn [hc0 hc1].
  rewrite run_pbind, (run_NumNodes _ _ _ _ Rl1). cbn [fst snd]. rewrite run_pbind, (run_NumNodes _ _ _ _ Rr1). cbn [fst snd].
  rewrite run_pbind, (run_height _ _ _ _ Rl1). cbn [fst snd]. rewrite run_pbind, (run_height _ _ _ _ Rr1). cbn [fst snd].
  cbv zeta. cbn [hactive w_sizes hPrefix hData hc0 hc1 store pbind run].
  assert (L1 : length h1 = length h) by apply upd_length.
  eexists _, _. split; [reflexivity|]. split; [|split; [|split]].
  - intros i Hi. rewrite upd_other by auto. auto.
  - rewrite upd_length. auto.
  - apply upd_same. lia.
  - assert (KS2 : forall x, keeps S h1 (Heap.upd h1 z x)) by (intros x i Hi; apply upd_other; intros ->; auto).
    unfold mk. cbn [repr]. exists z, l', r'. split; [reflexivity|]. split; [left; reflexivity|]. split; [apply upd_same; lia|].
    split; (eapply repr_keep; [eassumption|apply incl_plus1|apply KS2]).
Qed.

(* the calls in log were made, and the next one did not return *)
Definition call_failed (h : heap T) (st : St) : Prop :=
  exists (X : nat -> Prop) log h0 s0 p v, (forall i, X i -> (length h <= i)%nat) /\ calls_made mapper X h st log h0 s0 /\
    forall x, snd (run (mapper p v s0) h0) <> Ok x.
Hypothesis EQOK : forall d v, exists b, eq d (bx v) = Ok b.
Lemma failed_before (X : nat -> Prop) h st log h0 st0 : (forall i, X i -> (length h <= i < length h0)%nat) ->
  calls_made mapper X h st log h0 st0 -> call_failed h0 st0 -> call_failed h st.
Proof.
  intros HX C (X' & log' & h1 & s1 & p & v & HX' & C' & F).
  pose proof (cm_length mapper CALM _ _ _ _ _ _ C) as L. pose proof (cm_length mapper CALM _ _ _ _ _ _ C') as L'.
  exists (fun i => X i \/ X' i), (log ++ log'), h1, s1, p, v. split; [intros i [Y|Y]; [apply HX in Y|apply HX' in Y]; lia|]. split; [|exact F].
  eapply cm_app; (eapply (cm_weaken mapper CALM); [eassumption|tauto|]).
  - intros i [Y|Y]; auto.
  - intros i [Y|Y]; auto. apply HX in Y. right. left. lia.
Qed.

Lemma MapE_run : forall fuel t me st S h, dom S h -> repr S h me t -> (HeapLogic.depth t < fuel)%nat ->
  call_failed h st \/
  exists h' st' q (X : nat -> Prop) log t', run (h_MapE ieq fuel me node_mapper eq st) h = (h', Ok (st', q)) /\
    (forall i, X i -> (length h <= i < length h')%nat) /\
    calls_made mapper X h st log h' st' /\
    (forall made rest, Map t node_replay eq (made, map snd log ++ rest) = Ok ((made ++ map fst log, rest), t')) /\
    repr (fun i => S i \/ X i) h' q t'.
Proof.
  induction fuel as [|fuel IH]; intros t me st S h D R Hf; [lia|].
  destruct t as [|p d s hh a l r].
  { right. cbn [repr] in R. subst me. exists h, st, None, (fun _ => False), [], Nil. cbn [h_MapE map app].
    split; [reflexivity|]. split; [intros i []|]. split; [constructor; apply agree_refl|]. split; [|reflexivity].
    intros made rest. cbn [Map]. rewrite app_nil_r. reflexivity. }
  cbn [repr] in R. destruct R as (i & c0 & c1 & -> & Hi & Ei & R0 & R1).
  cbn [HeapLogic.depth] in Hf. cbn [h_MapE]. set (m := mkH p d s hh a c0 c1) in *.
  set (z := length h). set (h1 := h ++ [m]).
  assert (Z1 : nth_error h1 z = Some m) by (unfold h1, z; rewrite nth_error_app2, Nat.sub_diag by lia; reflexivity).
  assert (L1 : length h1 = Datatypes.S z) by (unfold h1, z; rewrite app_length; cbn; lia).
  assert (K1 : forall j, (j < z)%nat -> nth_error h1 j = nth_error h j) by (intros j Hj; apply nth_error_app1; exact Hj).
  assert (Sz : forall j, S j -> (j < z)%nat) by exact D.
  (* the mapper *)
  destruct (run (mapper p (ub d) st) h1) as [h2 r2] eqn:RM.
  pose proof (calm_grows (mapper p (ub d) st) h1 (CALM _ _ _)) as G. rewrite RM in G. cbn [fst] in G. destruct G as [L2 K2].
  assert (BAD : (forall x, r2 <> Ok x) -> call_failed h st).
  { intros B. exists (fun j => j = z), [], h1, st, p, (ub d). split; [intros j ->; unfold z; lia|]. split; [|rewrite RM; exact B].
    constructor. split; [unfold z in L1; lia|]. intros j Hj _. apply K1. exact Hj. }
  destruct r2 as [[st1 v]| |]; [|left; apply BAD; discriminate|left; apply BAD; discriminate]. clear BAD. set (nd := bx v).
  assert (RN : run (node_mapper p d st) h1 = (h2, Ok (st1, nd))) by (unfold node_mapper; rewrite run_pbind, RM; reflexivity).
  assert (Z2 : nth_error h2 z = Some m) by (rewrite K2 by lia; exact Z1).
  assert (K2' : forall j, (j < z)%nat -> nth_error h2 j = nth_error h j) by (intros j Hj; rewrite K2 by lia; auto).
  assert (I2 : nth_error h2 i = Some m) by (rewrite K2'; auto).
  destruct (EQOK d v) as [e EQ]. fold nd in EQ.
  set (dn := if e then d else nd).
  (* the heap after the data has been settled *)
  assert (SETTLE : exists h3, length h3 = length h2 /\ (forall j, j <> z -> nth_error h3 j = nth_error h2 j) /\
    nth_error h3 z = Some (mkH p dn s hh a c0 c1) /\
    forall B (k : St -> nat -> prog T B), run (m0 <- load (Some i) ;; dg <- alloc m0 ;;
      '(st1, nd) <- node_mapper (hPrefix m0) (hData m0) st ;;
      modify dg (w_data nd) ;;;
      m1 <- load (Some i) ;; e <- lift (eq (hData m1) nd) ;;
      (if e then m2 <- load (Some i) ;; modify dg (w_data (hData m2)) else ret tt) ;;; k st1 dg) h = run (k st1 z) h3).
  { assert (Lz2 : (z < length h2)%nat) by lia.
    set (h2a := Heap.upd h2 z (mkH p nd s hh a c0 c1)).
    assert (I2a : nth_error h2a i = Some m) by (unfold h2a; rewrite upd_other; [exact I2|specialize (Sz i Hi); lia]).
    assert (Z2a : nth_error h2a z = Some (mkH p nd s hh a c0 c1)) by (apply upd_same; exact Lz2).
    exists (if e then Heap.upd h2a z (mkH p d s hh a c0 c1) else h2a). split; [|split; [|split]].
    - destruct e; unfold h2a; rewrite ?upd_length; reflexivity.
    - intros j Hj. destruct e; unfold h2a; rewrite ?upd_other by auto; reflexivity.
    - unfold dn. destruct e; [apply upd_same; unfold h2a; rewrite upd_length; exact Lz2|exact Z2a].
    - intros B k. rewrite (run_load _ _ _ _ Ei). unfold alloc. cbn [pbind run ret]. fold h1. fold z.
      rewrite run_pbind. change (hPrefix m) with p. change (hData m) with d. rewrite RN. cbn [fst snd].
      rewrite (run_modify _ _ _ _ _ Z2). change (w_data nd m) with (mkH p nd s hh a c0 c1). fold h2a.
      rewrite (run_load _ _ _ _ I2a). change (hData m) with d. unfold lift. rewrite EQ. cbn [pbind]. destruct e.
      + rewrite run_pbind. rewrite (run_load _ _ _ _ I2a). change (hData m) with d.
        unfold modify. rewrite (run_load _ _ _ _ Z2a). reflexivity.
      + reflexivity. }
  destruct SETTLE as (h3 & L3 & K3 & Z3 & SETTLE).
  assert (K3' : forall j, (j < z)%nat -> nth_error h3 j = nth_error h j) by (intros j Hj; rewrite K3 by lia; auto).
  assert (D3 : dom S h3) by (intros j Hj; specialize (Sz j Hj); lia).
  assert (KS3 : keeps S h h3) by (intros j Hj; apply K3'; auto).
  assert (R03 : repr S h3 c0 l) by (eapply repr_keep; [exact R0|apply HeapOwn.incl_refl|exact KS3]).
  assert (R13 : repr S h3 c1 r) by (eapply repr_keep; [exact R1|apply HeapOwn.incl_refl|exact KS3]).
  assert (I3 : nth_error h3 i = Some m) by (rewrite K3'; auto).
  assert (C3 : calls_made mapper (fun j => j = z) h st [((p, ub d), v)] h3 st1).
  { apply (cm_cons mapper _ h h1 h2 h3 st st1 st1).
    + split; [unfold z in L1; lia|]. intros j Hj _. apply K1. exact Hj.
    + exact RM.
    + intros j ->. lia.
    + constructor. split; [lia|]. intros j Hj Xj. apply K3. exact Xj. }
  destruct (IH l c0 st1 S h3 D3 R03 ltac:(lia)) as [B|(h4 & st2 & ql & Xl & logl & tl & RL & XL & CL & ML & PL)].
  { left. eapply failed_before; [|exact C3|exact B]. intros j ->. unfold z in *. lia. }
  pose proof (cm_agree mapper CALM _ _ _ _ _ _ CL) as [L4 K4].
  assert (OLD4 : forall j, (j < length h3)%nat -> nth_error h4 j = nth_error h3 j).
  { intros j Hj. apply K4; auto. intros Y. apply XL in Y. lia. }
  assert (D4 : dom S h4) by (intros j Hj; specialize (D3 j Hj); lia).
  assert (KS4 : keeps S h3 h4) by (intros j Hj; apply OLD4; auto).
  assert (R14 : repr S h4 c1 r) by (eapply repr_keep; [exact R13|apply HeapOwn.incl_refl|exact KS4]).
  assert (I4 : nth_error h4 i = Some m) by (rewrite OLD4; auto).
  destruct (IH r c1 st2 S h4 D4 R14 ltac:(lia)) as [B|(h5 & st3 & qr & Xr & logr & tr & RR & XR & CR & MR & PR)].
  { left. eapply failed_before; [|exact C3|eapply failed_before; [exact XL|exact CL|exact B]]. intros j ->. unfold z in *. lia. }
  pose proof (cm_agree mapper CALM _ _ _ _ _ _ CR) as [L5 K5].
  assert (OLD5 : forall j, (j < length h4)%nat -> nth_error h5 j = nth_error h4 j).
  { intros j Hj. apply K5; auto. intros Y. apply XR in Y. lia. }
  set (S5 := fun j => S j \/ Xl j \/ Xr j).
  assert (Nz5 : ~ S5 z). { intros [Y|[Y|Y]]; [apply Sz in Y|apply XL in Y|apply XR in Y]; lia. }
  assert (Z5 : nth_error h5 z = Some (mkH p dn s hh a c0 c1)) by (rewrite OLD5, OLD4 by lia; exact Z3).
  assert (PL5 : repr S5 h5 ql tl).
  { eapply repr_keep; [exact PL|intros j [Y|Y]; unfold S5; auto|]. intros j Y. apply OLD5. destruct Y as [Y|Y]; [apply Sz in Y|apply XL in Y]; lia. }
  assert (PR5 : repr S5 h5 qr tr).
  { eapply repr_keep; [exact PR|intros j [Y|Y]; unfold S5; auto|apply keeps_refl]. }
  destruct (run_mutate S5 h5 z p dn s hh a c0 c1 ql qr tl tr Z5 PL5 PR5 Nz5) as (n & h6 & RU & K6 & L6 & Z6 & P6).
  assert (I6 : nth_error h6 i = Some m).
  { specialize (Sz i Hi). rewrite K6 by lia. rewrite OLD5 by lia. exact I4. }
  destruct (node_eq_ok ieq n m IEQ) as (e' & NE & He').
  right. set (X := fun j => j = z \/ Xl j \/ Xr j). set (log := (((p, ub d), v) :: logl ++ logr)).
  exists h6, st3, (if e' then Some i else Some z), X, log, (mk p dn a tl tr).
  split; [|split; [|split; [|split]]].
  - etransitivity; [apply (SETTLE _ (fun st1 dg =>
      m3 <- load (Some i) ;;
      '(st2, l') <- h_MapE ieq fuel (hc0 m3) node_mapper eq st1 ;;
      m4 <- load (Some i) ;;
      '(st3, r') <- h_MapE ieq fuel (hc1 m4) node_mapper eq st2 ;;
      mutated <- h_mutate (Some dg) (fun n => modify n (w_kids l' r')) ;;
      a <- load mutated ;;
      b <- load (Some i) ;;
      e' <- lift (node_eq ieq a b) ;;
      if e' then ret (st3, Some i) else ret (st3, mutated)))|].
    rewrite (run_load _ _ _ _ I3). change (hc0 m) with c0. rewrite run_pbind, RL. cbn [fst snd].
    rewrite (run_load _ _ _ _ I4). change (hc1 m) with c1. rewrite run_pbind, RR. cbn [fst snd].
    rewrite run_pbind, RU. cbn [fst snd]. rewrite (run_load _ _ _ _ Z6), (run_load _ _ _ _ I6).
    unfold lift. rewrite NE. cbn [pbind]. destruct e'; reflexivity.
  - intros j [->|[Y|Y]]; [unfold z; lia|apply XL in Y; lia|apply XR in Y; lia].
  - unfold log. change (((p, ub d), v) :: logl ++ logr) with ([((p, ub d), v)] ++ (logl ++ logr)).
    apply (cm_app mapper X h st _ h3 st1).
    { eapply (cm_weaken mapper CALM); [exact C3|intros j ->; left; reflexivity|].
      intros j [->|[Y|Y]]; [auto|apply XL in Y; right; right; lia|apply XR in Y; right; right; lia]. }
    apply (cm_app mapper X h3 st1 logl h4 st2).
    { eapply (cm_weaken mapper CALM); [exact CL|intros j Y; right; left; exact Y|].
      intros j [->|[Y|Y]]; [right; left; lia|auto|apply XR in Y; right; right; lia]. }
    rewrite <- (app_nil_r logr).
    apply (cm_app mapper X h4 st2 logr h5 st3).
    { eapply (cm_weaken mapper CALM); [exact CR|intros j Y; right; right; exact Y|].
      intros j [->|[Y|Y]]; [right; left; lia|apply XL in Y; right; left; lia|auto]. }
    constructor. split; [lia|]. intros j Hj Xj. apply K6. intros ->. apply Xj. left. reflexivity.
  - intros made rest. unfold log. cbn [map app Map node_replay replay fst snd List.tl List.hd]. fold nd. rewrite EQ. cbn [bind].
    rewrite !map_app, <- !app_assoc, ML. cbn [bind]. rewrite MR. cbn [bind]. rewrite <- !app_assoc. reflexivity.
  - assert (INC : incl_s (plus1 z S5) (fun j => S j \/ X j)) by (intros j [->|[Y|[Y|Y]]]; unfold X; auto).
    pose proof (repr_keep _ _ _ _ P6 _ _ INC (keeps_refl _ _)) as P7. destruct e'; [|exact P7].
    specialize (He' eq_refl). subst n. unfold mk in P7 |- *. cbn [repr] in P7 |- *.
    destruct P7 as (j & x0 & x1 & [= <-] & _ & Y & Y0 & Y1). exists i, x0, x1. split; [reflexivity|]. split; [left; exact Hi|].
    split; [rewrite I6; rewrite Z6 in Y; exact Y|]. split; assumption.
Qed.
End Map.
