(* ConcSetProof.v - the heap programs of ConcSet.v compute the functions on
   values, whatever other threads do meanwhile (programs_ok of ConcProof.v). *)
From Verif Require Export ConcSet ConcProof HeapSet.
From Verif Require Import SetThm PropsSet.
From Coq Require Import Arith ZifyBool ZifyNat ZifyN.
Local Open Scope prog_scope.

Section Walk.
Variable W : N.
Hypothesis HW : 0 < W /\ W < 2 ^ 15.
Context {T : Type}.
Lemma walk_ok {St} S h p (t : trie T) (cb : prefix -> option T -> St -> St * bool) st : repr S h p t -> wf W [] t ->
  wpi S h (h_Walk W p cb st) (fun r S' h' => r = Walk W (fun _ _ => false) t (Some cb) st /\ S' = S /\ h' = h).
Proof.
  intros R Hw. assert (F : dm (Nil : trie T) t < N.of_nat (fuelW W)).
  { pose proof (depth_wf W HW [] t Hw) as D.
    assert (X : N.of_nat (HeapLogic.depth t) = WF.depth t).
    { clear. induction t as [|p d s hh a l IHl r IHr]; cbn [HeapLogic.depth WF.depth]; lia. }
    unfold dm, fuelW. unfold pathW in D. destruct t; cbn [WF.depth] in *; lia. }
  eapply wpi_conseq.
  - unfold h_Walk, h_Diff. eapply (wpi_diff W _ _ (fun _ _ => true)) with (l := Nil) (r := t); auto.
    + reflexivity.
    + intros e e' [].
  - intros r S' h' (-> & -> & ->). split; [|split; reflexivity].
    unfold Walk, Diff.
    pose proof (diff_run W (fun _ _ => true) (fun _ _ => false) ltac:(discriminate) None (Some cb) None None
                (fun _ _ => Ok false) (fun _ _ => eq_refl) (fuelW W) Nil t st) as E3.
    unfold on1, on2, option_map in E3. rewrite E3; [reflexivity|intros e e' []|exact F].
Qed.
End Walk.

Ltac ss := (split; [reflexivity|split; reflexivity]).
Section P.
Variable W : N.
Hypothesis IPW : ip_width W.
Let HW : 0 < W /\ W < 2 ^ 15 := ip_HW W IPW.
Notation aset := (nat -> Prop).
Notation hp := (heap unit).
Notation swf := (swf W).
Notation set_value := (set_value W).
Notation nopq := (fun _ _ : snode => false).
Lemma nop_ok : pointer_eq nopq. Proof. discriminate. Qed.
Definition s_ve (s : snode) : unit := tt.
Definition s_vt (s : snode) : trie unit := s.
Notation crep := (crep s_vt s_ve set_value).
Notation dp := (@HeapLogic.depth unit).

Lemma dep_of k s : swf k s -> (dp s < pathW W)%nat.
Proof. intros [H _]. eapply depth_wf; eauto. Qed.

(* ---- reads ---- *)
Lemma wpi_NumAddresses : forall fuel t p S h, repr S h p t -> (dp t < fuel)%nat ->
  wpi S h (h_NumAddresses W fuel p) (same_state S h (NumAddresses W t)).
Proof.
  induction fuel as [|fuel IH]; intros t p S h R F; [lia|]. cbn [h_NumAddresses]. rewrite (repr_nilp _ _ _ _ R).
  destruct t as [|pr d s hh a l r]; cbn [is_nil NumAddresses]; [ss|].
  cbn [repr] in R. destruct R as (i & c0 & c1 & -> & Hi & Ei & R0 & R1). eapply wpi_load; [exact Hi|exact Ei|]. cbn [hactive hPrefix hc0 hc1].
  destruct a; [ss|]. cbn [HeapLogic.depth] in F.
  eapply wpi_read; [apply (IH l); auto; lia|]. eapply wpi_read; [apply (IH r); auto; lia|]. ss.
Qed.
Lemma wpi_trie_IsEmpty : forall fuel t p S h, repr S h p t -> (dp t < fuel)%nat ->
  wpi S h (h_trie_IsEmpty fuel p) (same_state S h (IsEmpty t)).
Proof.
  induction fuel as [|fuel IH]; intros t p S h R F; [lia|]. cbn [h_trie_IsEmpty]. rewrite (repr_nilp _ _ _ _ R).
  destruct t as [|pr d s hh a l r]; cbn [is_nil IsEmpty]; [ss|].
  cbn [repr] in R. destruct R as (i & c0 & c1 & -> & Hi & Ei & R0 & R1). eapply wpi_load; [exact Hi|exact Ei|]. cbn [hactive hPrefix hc0 hc1].
  destruct a; [ss|]. cbn [HeapLogic.depth] in F.
  eapply wpi_read; [apply (IH l); auto; lia|]. destruct (IsEmpty l); cbn [andb]; [apply (IH r); auto; lia|ss].
Qed.
Lemma wpi_IsEmpty t p S h : repr S h p t -> (dp t < pathW W)%nat -> wpi S h (h_IsEmpty W p) (same_state S h (set_IsEmpty W t)).
Proof.
  intros R F. unfold h_IsEmpty, set_IsEmpty. destruct (W =? 32).
  - eapply wpi_read; [apply wpi_NumAddresses; eauto|]. ss.
  - apply wpi_trie_IsEmpty; auto.
Qed.
(* results only *)
Notation rp x := (fun r (_ : aset) (_ : hp) => r = x).
Lemma wpi_best S h (lft rgt : prog unit (option prefix)) L R length : dom S h -> owns none lft -> owns none rgt ->
  wpi S h lft (rp L) -> (forall S' h', incl_s S S' -> dom S' h' -> keeps S h h' -> wpi S' h' rgt (rp (R tt))) ->
  wpi S h (h_best lft rgt length) (rp (best L R length)).
Proof.
  intros D O1 O2 H1 H2. unfold h_best, best. eapply wpi_call; [exact D|exact O1|exact H1|]. cbn beta.
  intros r1 S1 h1 -> I1 D1 K1. destruct L as [[lp|]| |]; cbn [bind]; try reflexivity.
  - destruct (plen lp =? length); [reflexivity|]. apply wpi_bind. eapply wpi_conseq; [apply (H2 S1 h1); auto|]. cbn beta. intros r2 S2 h2 ->.
    destruct (R tt) as [[rp'|]| |]; cbn [bind]; try reflexivity. destruct (plen lp <? plen rp'); reflexivity.
  - apply wpi_bind. eapply wpi_conseq; [apply (H2 S1 h1); auto|]. cbn beta. intros r2 S2 h2 ->.
    destruct (R tt) as [[rp'|]| |]; cbn [bind]; reflexivity.
Qed.
Lemma ownp_best (lft rgt : prog unit (option prefix)) length O : (forall O, ownp O lft any) -> (forall O, ownp O rgt any) -> ownp O (h_best lft rgt length) any.
Proof.
  intros H1 H2. unfold h_best. apply ownp_bind_any; [apply H1|]. intros [lp|] O1 _.
  - destruct (_ =? _); [apply ownp_ret_any|]. apply ownp_bind_any; [apply H2|]. intros [rp'|] O2 _; [destruct (_ <? _)|]; apply ownp_ret_any.
  - apply ownp_bind_any; [apply H2|]. intros [rp'|] O2 _; apply ownp_ret_any.
Qed.
Lemma ownp_findSmallest : forall fuel p length O, ownp O (h_findSmallest fuel p length) any.
Proof.
  induction fuel as [|fuel IH]; intros p length O; cbn [h_findSmallest]; [apply ownp_lift_any|].
  destruct (nilp p); [apply ownp_ret_any|]. apply ownp_bind_any; [apply ownp_load|]. intros n O1 _.
  destruct (_ <? _); [apply ownp_ret_any|]. destruct (_ && _); [apply ownp_ret_any|].
  apply ownp_bind_any; [apply ownp_best; intros; apply IH|]. intros [b|] O2 _; [apply ownp_ret_any|]. destruct (negb _); apply ownp_ret_any.
Qed.
Lemma ownp_findSmallestR : forall fuel p q length O, ownp O (h_findSmallestR W fuel p q length) any.
Proof.
  induction fuel as [|fuel IH]; intros p q length O; cbn [h_findSmallestR]; [apply ownp_lift_any|].
  destruct (nilp p); [apply ownp_ret_any|]. apply ownp_bind_any; [apply ownp_load|]. intros n O1 _.
  destruct (_ <? _); [apply ownp_ret_any|]. destruct (nilp q); [apply ownp_findSmallest|]. apply ownp_bind_any; [apply ownp_load|]. intros m O2 _.
  destruct (compare W (hPrefix n) (hPrefix m)) as [[[res rev] cm] child].
  assert (B1 : ownp O2 (h_best (h_findSmallestR W fuel (hc0 n) q length) (h_findSmallestR W fuel (hc1 n) q length) length) any) by (apply ownp_best; intros; apply IH).
  destruct res.
  - destruct (negb _); [exact B1|]. destruct (hactive m); [apply ownp_ret_any|]. apply ownp_bind_any; [apply ownp_halves|]. intros [a b] O3 _. apply ownp_best; intros; apply IH.
  - destruct (negb _); [exact B1|]. apply ownp_bind_any; [apply ownp_halves|]. intros [a b] O3 _. apply ownp_best; intros; [apply ownp_findSmallest|apply IH].
  - destruct (hactive m); [apply ownp_ret_any|apply IH].
  - apply ownp_findSmallest.
Qed.
Lemma wpi_findSmallest : forall fuel t p length S h, dom S h -> repr S h p t -> (dp t < fuel)%nat ->
  wpi S h (h_findSmallest fuel p length) (rp (findSmallest t length)).
Proof.
  induction fuel as [|fuel IH]; intros t p length S h D R F; [lia|]. cbn [h_findSmallest]. rewrite (repr_nilp _ _ _ _ R).
  destruct t as [|pr d s hh a l r]; cbn [is_nil findSmallest]; [reflexivity|].
  cbn [repr] in R. destruct R as (i & c0 & c1 & -> & Hi & Ei & R0 & R1). eapply wpi_load; [exact Hi|exact Ei|]. cbn [hactive hPrefix hc0 hc1].
  destruct (length <? plen pr); [reflexivity|]. destruct (_ && a); [reflexivity|]. cbn [HeapLogic.depth] in F.
  apply wpi_bind. eapply wpi_conseq.
  - apply (wpi_best S h _ _ (findSmallest l length) (fun _ => findSmallest r length)); auto.
    + eapply ownp_owns; apply ownp_findSmallest.
    + eapply ownp_owns; apply ownp_findSmallest.
    + apply IH; auto; lia.
    + intros S' h' I' D' K'. apply IH; auto; [eapply repr_keep; eauto|lia].
  - cbn beta. intros r0 S' h' ->. destruct (best _ _ length) as [[b|]| |]; cbn [bind]; try reflexivity. destruct (negb a); reflexivity.
Qed.
Lemma wpi_findSmallestR : forall fuel me res pm pr length S h, dom S h -> repr S h pm me -> repr S h pr res -> (dp me < pathW W)%nat ->
  wpi S h (h_findSmallestR W fuel pm pr length) (rp (findSmallestR W fuel me res length)).
Proof.
  induction fuel as [|fuel IH]; intros me res pm pr length S h D Rm Rr F; [reflexivity|]. cbn [h_findSmallestR].
  rewrite (repr_nilp _ _ _ _ Rm), (repr_nilp _ _ _ _ Rr).
  destruct me as [|mp md ms mh ma ml mr]; cbn [is_nil findSmallestR]; [reflexivity|].
  pose proof Rm as Rm2. cbn [repr] in Rm2. destruct Rm2 as (i & c0 & c1 & -> & Hi & Ei & R0 & R1). eapply wpi_load; [exact Hi|exact Ei|]. cbn [hactive hPrefix hc0 hc1].
  destruct (length <? plen mp); [reflexivity|].
  destruct res as [|rp0 rd rs rh ra rl rr]; cbn [is_nil]; [apply wpi_findSmallest; auto|].
  pose proof Rr as Rr2. cbn [repr] in Rr2. destruct Rr2 as (j & e0 & e1 & -> & Hj & Ej & S0 & S1). eapply wpi_load; [exact Hj|exact Ej|]. cbn [hactive hPrefix hc0 hc1].
  destruct (compare W mp rp0) as [[[result rev] cm] child].
  assert (F0 : (dp ml < pathW W)%nat /\ (dp mr < pathW W)%nat) by (cbn [HeapLogic.depth] in F; lia).
  assert (B1 : wpi S h (h_best (h_findSmallestR W fuel c0 (Some j) length) (h_findSmallestR W fuel c1 (Some j) length) length)
     (rp (best (findSmallestR W fuel ml (Node rp0 rd rs rh ra rl rr) length) (fun _ => findSmallestR W fuel mr (Node rp0 rd rs rh ra rl rr) length) length))).
  { apply wpi_best; auto.
    - eapply ownp_owns; apply ownp_findSmallestR.
    - eapply ownp_owns; apply ownp_findSmallestR.
    - apply IH; tauto.
    - intros S' h' I' D' K'. apply IH; auto; try tauto; eapply repr_keep; eauto. }
  assert (HD : forall p, (dp (fst (halves W p)) < pathW W)%nat /\ (dp (snd (halves W p)) < pathW W)%nat).
  { intros p. unfold halves. destruct (Halves W p). cbn. unfold pathW. lia. }
  destruct result.
  - destruct (negb ma); [exact B1|]. destruct ra; [reflexivity|].
    eapply wpi_call; [exact D|eapply ownp_owns; apply ownp_halves|apply wpi_halves; auto|]. cbn beta. intros r1 S' h' X I' D' K'.
    specialize (HD mp). destruct r1 as [[lf rg]| |]; try contradiction. cbn [rel] in X. destruct (halves W mp) as [tl tr]. cbn [fst snd] in X, HD.
    apply wpi_best; auto.
    + eapply ownp_owns; apply ownp_findSmallestR.
    + eapply ownp_owns; apply ownp_findSmallestR.
    + apply IH; try tauto. eapply repr_keep; eauto.
    + intros S2 h2 I2 D2 K2. apply IH; auto; try tauto; eapply repr_keep; [|exact I2|exact K2| |exact I2|exact K2]; try apply X. eapply repr_keep; eauto.
  - destruct (negb ma); [exact B1|].
    eapply wpi_call; [exact D|eapply ownp_owns; apply ownp_halves|apply wpi_halves; auto|]. cbn beta. intros r1 S' h' X I' D' K'.
    specialize (HD mp). destruct r1 as [[lf rg]| |]; try contradiction. cbn [rel] in X. destruct (halves W mp) as [tl tr]. cbn [fst snd] in X, HD.
    apply wpi_best; auto.
    + eapply ownp_owns; apply ownp_findSmallest.
    + eapply ownp_owns; apply ownp_findSmallestR.
    + apply wpi_findSmallest; auto; destruct child; tauto.
    + intros S2 h2 I2 D2 K2. assert (Rx : repr S2 h2 (Some j) (Node rp0 rd rs rh ra rl rr)).
      { eapply repr_keep; [eapply repr_keep; [exact Rr|exact I'|exact K']|exact I2|exact K2]. }
      apply IH; auto; destruct child; try tauto; eapply repr_keep; try exact I2; try exact K2; apply X.
  - destruct ra; [reflexivity|]. apply IH; auto. apply repr_kid; auto.
  - apply wpi_findSmallest; auto.
Qed.

(* ---- arguments ---- *)
Lemma swf_of s : set_value s -> swf [] s. Proof. apply value_swf. exact HW. Qed.
Lemma arg_prog x a S h xs ts : s_arg_ok W x a -> dom S h -> Forall2 (crep S h) xs ts -> length a = length xs ->
  exists i t, s_setI x ts = Some i /\ valid_arg W i /\ setI W nopq i = Ok t /\ swf [] t /\
    wpi S h (s_argp W x xs) (fun r S' h' => exists q, r = Ok q /\ repr S' h' q t).
Proof.
  intros Hx D Hxs La.
  assert (G : forall i, s_setI x ts = Some i -> valid_arg W i ->
     (forall t, setI W nopq i = Ok t -> wpi S h (s_argp W x xs) (fun r S' h' => exists q, r = Ok q /\ repr S' h' q t)) ->
     exists i t, s_setI x ts = Some i /\ valid_arg W i /\ setI W nopq i = Ok t /\ swf [] t /\
      wpi S h (s_argp W x xs) (fun r S' h' => exists q, r = Ok q /\ repr S' h' q t)).
  { intros i E V Hp. destruct (arg_ok W HW nopq i nop_ok V) as (t & Et & St & _). exists i, t. auto 10. }
  destruct x as [|b|p|r|]; cbn [s_arg_ok s_setI s_argp] in *.
  - eapply G; [reflexivity|constructor|]. cbn. intros t [= <-]. exists None. split; reflexivity.
  - destruct Hx as [Hb _]. eapply G; [reflexivity|constructor; auto|]. cbn [setI asSet]. intros t [= <-].
    eapply wpi_conseq; [apply wpi_setNodeFromPrefix; auto|]. cbn beta. intros r S' h' X. destruct r; try contradiction. eauto.
  - destruct Hx as [Hb _]. eapply G; [reflexivity|constructor; auto|]. cbn [setI asSet]. intros t [= <-].
    eapply wpi_conseq; [apply wpi_setNodeFromPrefix; auto|]. cbn beta. intros r S' h' X. destruct r; try contradiction. eauto.
  - destruct Hx as [Hb _]. eapply G; [reflexivity|constructor; auto|]. cbn [setI asSet]. intros t Et.
    eapply wpi_conseq; [apply (wpi_setNodeFromRange W HW); auto|]. cbn beta. intros r0 S' h' X. change (HeapProof2.nop (T := unit)) with nopq in X. rewrite Et in X. destruct r0; try contradiction. eauto.
  - destruct Hx as [s ->]. cbn in La. destruct xs as [|[q u] [|? ?]]; try discriminate. inversion Hxs as [|? t ? ? (R & _ & Hv) H0]; subst. inversion H0; subst.
    eapply G; [reflexivity|constructor; exact Hv|]. cbn. intros t' [= <-]. exists q. split; auto.
Qed.
Lemma ownp_argp x xs O : ownp O (s_argp W x xs) any.
Proof.
  destruct x as [|b|p|r|]; cbn [s_argp]; [apply ownp_ret_any|apply ownp_setNodeFromPrefix|apply ownp_setNodeFromPrefix|apply ownp_from_range|].
  destruct xs as [|[q u] [|? ?]]; first [apply ownp_lift_any|apply ownp_ret_any].
Qed.
(* run the argument first, then the rest *)
Lemma arg_then {B} x a S h xs ts (f : ptr -> prog unit B) (Q : option SetI -> snode -> res B -> aset -> hp -> Prop) :
  s_arg_ok W x a -> dom S h -> Forall2 (crep S h) xs ts -> length a = length xs ->
  (forall i t q S' h', valid_arg W i -> setI W nopq i = Ok t -> swf [] t -> incl_s S S' -> dom S' h' -> keeps S h h' -> repr S' h' q t ->
     wpi S' h' (f q) (Q i t)) ->
  exists i t, s_setI x ts = Some i /\ valid_arg W i /\ setI W nopq i = Ok t /\ wpi S h (q <- s_argp W x xs ;; f q) (Q i t).
Proof.
  intros Hx D Hxs La K. destruct (arg_prog x a S h xs ts Hx D Hxs La) as (i & t & E1 & V & E2 & St & Wp). exists i, t. split; auto. split; auto. split; auto.
  eapply wpi_call; [exact D|eapply ownp_owns; apply ownp_argp|exact Wp|]. cbn beta. intros r S' h' (q & -> & R) I D' K'. apply K; auto.
Qed.

Lemma union_ok s t p q S h : dom S h -> repr S h p s -> repr S h q t -> swf [] s -> swf [] t ->
  wpi S h (h_Union W p q) (fun r S' h' => exists u n, Union W nopq s t = Ok u /\ r = Ok n /\ repr S' h' n u).
Proof.
  intros D R1 R2 Hs Ht. eapply wpi_conseq; [eapply (wpi_Union W HW); eauto|]. cbn beta. change (HeapProof2.nop (T := unit)) with nopq. intros r S' h' X.
  destruct (union_mem W HW nopq s t nop_ok Hs Ht) as (u & E & _). rewrite E in *. destruct r; try contradiction. eauto 10.
Qed.
Lemma diff_ok s t p q S h : dom S h -> repr S h p s -> repr S h q t -> swf [] s -> swf [] t ->
  wpi S h (h_Difference W p q) (fun r S' h' => exists u n, Difference W nopq s t = Ok u /\ swf [] u /\ r = Ok n /\ repr S' h' n u).
Proof.
  intros D R1 R2 Hs Ht. eapply wpi_conseq; [eapply (wpi_Difference W HW); eauto|]. cbn beta. change (HeapProof2.nop (T := unit)) with nopq. intros r S' h' X.
  destruct (diff_mem W HW nopq s t nop_ok Hs Ht) as (u & E & Su & _). rewrite E in *. destruct r; try contradiction. eauto 10.
Qed.
Lemma inter_ok s t p q S h : dom S h -> repr S h p s -> repr S h q t -> swf [] s -> swf [] t ->
  wpi S h (h_Intersect W p q) (fun r S' h' => exists u n, Intersect W nopq s t = Ok u /\ r = Ok n /\ repr S' h' n u).
Proof.
  intros D R1 R2 Hs Ht. eapply wpi_conseq; [eapply (wpi_Intersect W HW); eauto|]. cbn beta. change (HeapProof2.nop (T := unit)) with nopq. intros r S' h' X.
  destruct (inter_mem W HW nopq s t nop_ok Hs Ht) as (u & E & _). rewrite E in *. destruct r; try contradiction. eauto 10.
Qed.

Ltac fin := first [eassumption | eapply repr_keep; eassumption | apply swf_of; eassumption].
Lemma s_write_ok : forall c o a S h x v xs vs, s_call_ok W (KWrite (Some c) o a) -> dom S h -> crep S h x v -> True ->
  Forall2 (crep S h) xs vs -> length a = length xs ->
  wpi S h (s_wprog W o x xs) (wpost s_vt s_ve set_value (s_ve v) (s_wfun W o v vs)).
Proof.
  intros c o a S h [p []] s xs vs Hc D (R & _ & Hv) _ Hxs La. cbn [fst snd] in *. unfold s_vt in R.
  destruct o as [x|x]; cbn [s_call_ok s_wprog s_wfun fst] in *.
  - destruct (arg_then x a S h xs vs (fun q => n <- h_Union W p q ;; ret (Some n, SUnit))
      (fun i _ => wpost s_vt s_ve set_value tt (of_some (set__Insert W nopq (Some s) i) SUnit)) Hc D Hxs La) as (i & t & E1 & V & E2 & Wp).
    + intros i t q S' h' V Et St I' D' K' Rq. apply wpi_bind. eapply wpi_conseq; [eapply union_ok; fin|].
      cbn beta. intros r S2 h2 (u & n & EU & -> & Rn). apply wpi_ret. unfold wpost, of_some, set__Insert. rewrite Et. cbn [bind]. rewrite EU. cbn [bind]. split; auto.
      split; [exact Rn|]. split; [reflexivity|]. eapply (sv_union W nopq s i u nop_ok Hv V). unfold set_Union. rewrite Et. exact EU.
    + unfold with_arg. rewrite E1. exact Wp.
  - destruct (arg_then x a S h xs vs (fun q => n <- h_Difference W p q ;; ret (Some n, SUnit))
      (fun i _ => wpost s_vt s_ve set_value tt (of_some (set__Remove W nopq (Some s) i) SUnit)) Hc D Hxs La) as (i & t & E1 & V & E2 & Wp).
    + intros i t q S' h' V Et St I' D' K' Rq. apply wpi_bind. eapply wpi_conseq; [eapply diff_ok; fin|].
      cbn beta. intros r S2 h2 (u & n & EU & _ & -> & Rn). apply wpi_ret. unfold wpost, of_some, set__Remove. rewrite Et. cbn [bind]. rewrite EU. cbn [bind]. split; auto.
      split; [exact Rn|]. split; [reflexivity|]. eapply (sv_diff W nopq s i u nop_ok Hv V). unfold set_Difference. rewrite Et. exact EU.
    + unfold with_arg. rewrite E1. exact Wp.
Qed.

Lemma s_read_ok : forall y r a S h x v xs vs, s_call_ok W (KRead y r a) -> dom S h -> orep s_vt s_ve set_value S h x v ->
  Forall2 (crep S h) xs vs -> length a = length xs ->
  wpi S h (s_rprog W r x xs) (rpost (s_rfun W r v vs)).
Proof.
  intros y r a S h x v xs vs Hc D Hx Hxs La. destruct x as [[p []]|], v as [s|]; try contradiction.
  - destruct Hx as (R & _ & Hv). cbn [fst snd] in R. unfold s_vt in R. pose proof (swf_of _ Hv) as Sw. pose proof (dep_of _ _ Sw) as Dp.
    destruct r as [| |x| |go|go|x len]; cbn [s_call_ok s_rprog s_rfun] in *.
    + eapply wpi_read; [apply (wpi_NumAddresses _ s); auto|]. reflexivity.
    + eapply wpi_read; [apply (wpi_IsEmpty s); auto|]. unfold rpost. cbn. unfold set__IsEmpty, set__NumAddresses, set_NumAddresses, set_IsEmpty.
      destruct (W =? 32); reflexivity.
    + destruct (arg_then x a S h xs vs (fun q => d <- h_Difference W q p ;; b <- h_IsEmpty W d ;; ret (SBool b))
        (fun i _ => rpost (bind (set__Contains W nopq (Some s) i) (fun b => Ok (SBool b)))) Hc D Hxs La) as (i & t & E1 & V & E2 & Wp).
      * intros i t q S' h' V Et St I' D' K' Rq. apply wpi_bind. eapply wpi_conseq; [eapply (diff_ok t s); fin|].
        cbn beta. intros r S2 h2 (u & n & EU & Su & -> & Rn). eapply wpi_read; [apply (wpi_IsEmpty u); auto; eapply dep_of; eauto|].
        unfold rpost. cbn [set__Contains]. unfold set_Contains. rewrite Et. cbn [bind]. rewrite EU. reflexivity.
      * unfold with_arg. rewrite E1. exact Wp.
    + destruct Hc as [s0 ->]. cbn in La. destruct xs as [|[q []] [|? ?]]; try discriminate. inversion Hxs as [|? t ? ? (R2 & _ & Hv2) H0]; subst. inversion H0; subst.
      eapply wpi_reads; [eapply (wpi_Equal _ (pathW W) s t); eauto|]. cbn [set__Equal set__Set]. unfold set_Equal, snode_Equal. change (HeapProof2.nop (T := unit)) with nopq.
      destruct (Equal nopq s t _); reflexivity.
    + apply wpi_bind. eapply wpi_conseq; [apply (walk_ok W HW); [exact R|apply Sw]|]. cbn beta. intros r S' h' (-> & -> & ->).
      unfold set_WalkPrefixes. match goal with |- match ?w with _ => _ end => set (w0 := w) end.
      match goal with |- context [bind (bind ?w _) _] => idtac | |- context [bind ?w (fun x : list prefix * bool => _)] => change w with w0 end. destruct w0 as [[l b]| |]; reflexivity.
    + apply wpi_bind. eapply wpi_conseq; [apply (walk_ok W HW); [exact R|apply Sw]|]. cbn beta. intros r S' h' (-> & -> & ->).
      unfold set_WalkRanges, set_WalkPrefixes. match goal with |- match ?w with _ => _ end => set (w0 := w) end.
      match goal with |- context [bind (bind ?w ?f) ?g] => change (bind (bind w f) g) with (bind (bind w0 f) g) end.
      destruct w0 as [[[rs st1] b]| |]; try reflexivity. cbn [bind].
      destruct (negb b); [reflexivity|]. destruct rs as [|r0 [|r1 rs]]; try reflexivity.
      destruct (seen go r0 st1) as [st2 [|]]; reflexivity.
    + destruct Hc as [_ Hc].
      assert (G : wpi S h (q <- s_argp W x xs ;; x <- h_findSmallestR W (fuelW W) p q len ;;
         match x with None => ret (SFound None) | Some p => ret (SFound (Some (mkPrefix (paddr (Network W p)) len))) end)
         (rpost (match s_setI x vs with Some (Some i) => bind (set_FindAvailablePrefix W nopq s (Some i) len) (fun p => Ok (SFound p))
                 | Some None => bind (set_FindAvailablePrefix W nopq s (Some (TheSet Nil)) len) (fun p => Ok (SFound p)) | None => Panic end))).
      { destruct (arg_then x a S h xs vs (fun q => x <- h_findSmallestR W (fuelW W) p q len ;;
         match x with None => ret (SFound None) | Some p => ret (SFound (Some (mkPrefix (paddr (Network W p)) len))) end)
        (fun i t => rpost (bind (findSmallestR W (fuelW W) s t len) (fun x => match x with None => Ok (SFound None) | Some p => Ok (SFound (Some (mkPrefix (paddr (Network W p)) len))) end)))
         Hc D Hxs La) as (i & t & E1 & V & E2 & Wp).
        - intros i t q S' h' V Et St I' D' K' Rq. apply wpi_bind. eapply wpi_conseq; [apply (wpi_findSmallestR _ s t); auto; eapply repr_keep; eauto|].
          cbn beta. intros r S2 h2 ->. destruct (findSmallestR W (fuelW W) s t len) as [[b|]| |]; reflexivity.
        - rewrite E1. eapply wpi_conseq; [exact Wp|]. unfold rpost. intros r S' h' ->. unfold set_FindAvailablePrefix, FindSmallestContainingPrefix.
          destruct i as [i|]; cbn [setI] in E2; [rewrite E2|injection E2 as <-; cbn [asSet]]; cbn [bind]; destruct (findSmallestR W (fuelW W) s _ len) as [[b|]| |]; reflexivity. }
      destruct x; try exact G; [reflexivity|].
      unfold with_arg. cbn [s_setI] in *. destruct vs as [|t [|? ?]]; exact G.
  - destruct r as [| |x| |go|go|x len]; cbn [s_call_ok s_rprog s_rfun] in *.
    + reflexivity.
    + unfold set__IsEmpty, set__NumAddresses. destruct (W =? 32); reflexivity.
    + assert (G : wpi S h (q <- s_argp W x xs ;; b <- h_IsEmpty W q ;; ret (SBool b))
         (rpost (match s_setI x vs with Some i => bind (setI W nopq i) (fun t => Ok (SBool (set_IsEmpty W t))) | None => Panic end))).
      { destruct (arg_then x a S h xs vs (fun q => b <- h_IsEmpty W q ;; ret (SBool b))
         (fun i t => rpost (Ok (SBool (set_IsEmpty W t)))) Hc D Hxs La) as (i & t & E1 & V & E2 & Wp).
        - intros i t q S' h' V Et St I' D' K' Rq. eapply wpi_read; [apply (wpi_IsEmpty t); auto; eapply dep_of; eauto|]. reflexivity.
        - rewrite E1, E2. exact Wp. }
      unfold with_arg, set__Contains. destruct x; cbn [s_setI setI] in G |- *; try (destruct vs as [|t [|? ?]]); try exact G; try reflexivity;
        (match goal with |- context [asSet W nopq ?y] => destruct (asSet W nopq y) end; exact G).
    + destruct Hc as [s0 ->]. cbn in La. destruct xs as [|[q []] [|? ?]]; try discriminate. inversion Hxs as [|? t ? ? (R2 & _ & Hv2) H0]; subst. inversion H0; subst.
      cbn [fst] in R2. unfold s_vt in R2. pose proof (swf_of _ Hv2) as Sw.
      eapply wpi_read; [apply (wpi_IsEmpty t); auto; eapply dep_of; eauto|]. unfold rpost. cbn [set__Equal bind]. unfold set__IsEmpty, set__NumAddresses, set_NumAddresses, set_IsEmpty.
      destruct (W =? 32); reflexivity.
    + reflexivity.
    + reflexivity.
    + destruct x; reflexivity.
Qed.

Lemma s_build_ok : forall b a S h xs vs, s_call_ok W (KBuild b a) -> dom S h -> Forall2 (crep S h) xs vs -> length a = length xs ->
  wpi S h (s_bprog W b xs) (bpost (s_bfun W) s_vt s_ve set_value b vs (s_bext b xs)).
Proof.
  intros b a S h xs vs Hc D Hxs La.
  assert (SPLIT : forall x, (exists s a', a = s :: a' /\ s_arg_ok W x a') ->
     exists a' p s xs' vs', s_arg_ok W x a' /\ xs = (p, tt) :: xs' /\ vs = s :: vs' /\ repr S h p s /\ set_value s /\ Forall2 (crep S h) xs' vs' /\ length a' = length xs').
  { intros x (s0 & a' & -> & Ha). destruct xs as [|[p []] xs']; [discriminate|]. inversion Hxs as [|? s ? vs' (R & _ & Hv) Hr]; subst.
    exists a', p, s, xs', vs'. cbn in La. conj; auto. }
  destruct b as [x|x|x|x]; cbn [s_call_ok s_bprog] in *.
  - destruct (arg_prog x a S h xs vs Hc D Hxs La) as (i & t & E1 & V & E2 & St & Wp). eapply wpi_conseq; [exact Wp|]. cbn beta. intros r S' h' (q & -> & Rq).
    exists (Ok t). split; [cbn; unfold with_arg; rewrite E1; auto|]. split; [exact Rq|]. split; [reflexivity|]. eapply sv_arg; eauto. exact nop_ok.
  - destruct (SPLIT x Hc) as (a' & p & s & xs' & vs' & Ha & -> & -> & R & Hv & Hr & Lr).
    destruct (arg_then x a' S h xs' vs' (fun q => h_Union W p q)
      (fun i _ r S' h' => exists u n, set_Union W nopq s i = Ok u /\ r = Ok n /\ repr S' h' n u) Ha D Hr Lr) as (i & t & E1 & V & E2 & Wp).
    + intros i t q S' h' V Et St I' D' K' Rq. unfold set_Union. rewrite Et. cbn [bind]. eapply union_ok; fin.
    + eapply wpi_conseq; [exact Wp|]. cbn beta. intros r S' h' (u & n & EU & -> & Rn). exists (Ok u). split; [cbn; unfold with_arg; rewrite E1; auto|].
      split; [exact Rn|]. split; [reflexivity|]. eapply (sv_union W nopq s i u nop_ok Hv V EU).
  - destruct (SPLIT x Hc) as (a' & p & s & xs' & vs' & Ha & -> & -> & R & Hv & Hr & Lr).
    destruct (arg_then x a' S h xs' vs' (fun q => h_Intersect W p q)
      (fun i _ r S' h' => exists u n, set_Intersection W nopq s i = Ok u /\ r = Ok n /\ repr S' h' n u) Ha D Hr Lr) as (i & t & E1 & V & E2 & Wp).
    + intros i t q S' h' V Et St I' D' K' Rq. unfold set_Intersection. rewrite Et. cbn [bind]. eapply inter_ok; fin.
    + eapply wpi_conseq; [exact Wp|]. cbn beta. intros r S' h' (u & n & EU & -> & Rn). exists (Ok u). split; [cbn; unfold with_arg; rewrite E1; auto|].
      split; [exact Rn|]. split; [reflexivity|]. eapply (sv_inter W nopq s i u nop_ok Hv V EU).
  - destruct (SPLIT x Hc) as (a' & p & s & xs' & vs' & Ha & -> & -> & R & Hv & Hr & Lr).
    destruct (arg_then x a' S h xs' vs' (fun q => h_Difference W p q)
      (fun i _ r S' h' => exists u n, set_Difference W nopq s i = Ok u /\ r = Ok n /\ repr S' h' n u) Ha D Hr Lr) as (i & t & E1 & V & E2 & Wp).
    + intros i t q S' h' V Et St I' D' K' Rq. unfold set_Difference. rewrite Et. cbn [bind].
      eapply wpi_conseq; [eapply diff_ok; fin|]. cbn beta. intros r S2 h2 (u & n & X1 & _ & X2 & X3). eauto.
    + eapply wpi_conseq; [exact Wp|]. cbn beta. intros r S' h' (u & n & EU & -> & Rn). exists (Ok u). split; [cbn; unfold with_arg; rewrite E1; auto|].
      split; [exact Rn|]. split; [reflexivity|]. eapply (sv_diff W nopq s i u nop_ok Hv V EU).
Qed.

Lemma set_programs : programs_ok (s_wprog W) (s_rprog W) (s_bprog W) tt s_bext s_thaw (s_call_ok W)
  (s_wfun W) (s_rfun W) (s_bfun W) Nil s_new s_thawed s_vt s_ve set_value (fun _ => True).
Proof.
  assert (OE : forall p O, ownp O (h_IsEmpty W p) any).
  { assert (N : forall fuel p O, ownp O (h_NumAddresses W fuel p) any).
    { induction fuel as [|fuel IH]; intros p O; cbn [h_NumAddresses]; [apply ownp_lift_any|]. destruct (nilp p); [apply ownp_ret_any|].
      apply ownp_bind_any; [apply ownp_load|]. intros n O1 _. destruct (hactive n); [apply ownp_ret_any|].
      apply ownp_bind_any; [apply IH|]. intros x O2 _. apply ownp_bind_any; [apply IH|]. intros; apply ownp_ret_any. }
    assert (N2 : forall fuel p O, ownp O (h_trie_IsEmpty fuel p) any).
    { induction fuel as [|fuel IH]; intros p O; cbn [h_trie_IsEmpty]; [apply ownp_lift_any|]. destruct (nilp p); [apply ownp_ret_any|].
      apply ownp_bind_any; [apply ownp_load|]. intros n O1 _. destruct (hactive n); [apply ownp_ret_any|].
      apply ownp_bind_any; [apply IH|]. intros [|] O2 _; [apply IH|apply ownp_ret_any]. }
    intros p O. unfold h_IsEmpty. destruct (W =? 32); [|apply N2]. apply ownp_bind_any; [apply N|]. intros; apply ownp_ret_any. }
  assert (ON : forall fuel p O, ownp O (h_NumAddresses W fuel p) any).
  { induction fuel as [|fuel IH]; intros p O; cbn [h_NumAddresses]; [apply ownp_lift_any|]. destruct (nilp p); [apply ownp_ret_any|].
    apply ownp_bind_any; [apply ownp_load|]. intros n O1 _. destruct (hactive n); [apply ownp_ret_any|].
    apply ownp_bind_any; [apply IH|]. intros x O2 _. apply ownp_bind_any; [apply IH|]. intros; apply ownp_ret_any. }
  constructor.
  - intros v v' E _. exact E.
  - intros S h. split; [reflexivity|]. split; [reflexivity|constructor].
  - intros S h [] _. split; auto. split; [reflexivity|]. split; [reflexivity|constructor].
  - intros S h p [] s _ _ H. split; auto.
  - intros o [p []] vs. eapply ownp_owns with any. destruct o as [x|x]; cbn [s_wprog fst]; (apply ownp_bind_any; [apply ownp_argp|]; intros q O _).
    + apply ownp_bind_any; [apply ownp_Union|]. intros; apply ownp_ret_any.
    + apply ownp_bind_any; [apply ownp_difference|]. intros; apply ownp_ret_any.
  - intros r x vs. eapply ownp_owns with any. destruct x as [[p []]|], r as [| |x| |go|go|x len]; cbn [s_rprog]; try apply ownp_ret_any; try apply ownp_lift_any.
    + apply ownp_bind_any; [apply ON|]. intros; apply ownp_ret_any.
    + apply ownp_bind_any; [apply OE|]. intros; apply ownp_ret_any.
    + apply ownp_bind_any; [apply ownp_argp|]. intros q O _. apply ownp_bind_any; [apply ownp_difference|]. intros d O1 _. apply ownp_bind_any; [apply OE|]. intros; apply ownp_ret_any.
    + destruct vs as [|[q u] [|? ?]]; try apply ownp_lift_any. apply ownp_bind_any; [apply ownp_Equal|]. intros; apply ownp_ret_any.
    + apply ownp_bind_any; [apply ownp_diff|]. intros [l b] O _; apply ownp_ret_any.
    + apply ownp_bind_any; [apply ownp_diff|]. intros [[rs st] b] O _. destruct (negb b); [apply ownp_ret_any|].
      destruct rs as [|r0 [|r1 rs]]; try apply ownp_ret_any. destruct (seen go r0 st) as [st2 [|]]; apply ownp_ret_any.
    + assert (G : ownp none (q <- s_argp W x vs ;; x <- h_findSmallestR W (fuelW W) p q len ;;
         match x with None => ret (SFound None) | Some p => ret (SFound (Some (mkPrefix (paddr (Network W p)) len))) end) any).
      { apply ownp_bind_any; [apply ownp_argp|]. intros q O _. apply ownp_bind_any; [apply ownp_findSmallestR|]. intros [b|] O1 _; apply ownp_ret_any. }
      destruct x; first [exact G|apply ownp_lift_any].
    + assert (G : ownp none (q <- s_argp W x vs ;; b <- h_IsEmpty W q ;; ret (SBool b)) any).
      { apply ownp_bind_any; [apply ownp_argp|]. intros q O _. apply ownp_bind_any; [apply OE|]. intros; apply ownp_ret_any. }
      destruct x; first [exact G|apply ownp_ret_any].
    + destruct vs as [|[q u] [|? ?]]; try apply ownp_lift_any. apply ownp_bind_any; [apply OE|]. intros; apply ownp_ret_any.
  - intros b vs. eapply ownp_owns with any. destruct b as [x|x|x|x]; cbn [s_bprog]; [apply ownp_argp| | |];
      (destruct vs as [|[p u] vs]; [apply ownp_lift_any|]; apply ownp_bind_any; [apply ownp_argp|]; intros q O _).
    + apply ownp_Union.
    + apply ownp_intersect.
    + apply ownp_difference.
  - exact s_write_ok.
  - exact s_read_ok.
  - exact s_build_ok.
Qed.
End P.
