(* HeapProof2.v - the pointer-level Map, Diff, Walk and Equal compute what the
   tree-level functions of Trie.v compute, whatever nodes the arguments share. *)
From Verif Require Import WF DiffProof.
From Verif Require Export HeapProof.
From Coq Require Import Arith ZifyBool ZifyNat ZifyN.
Local Open Scope prog_scope.

Section Refine.
Variable W : N.
Context {T : Type}.
Variable ieq : option T -> option T -> res bool.
Hypothesis IEQ : ieq_ok ieq.
Notation aset := (nat -> Prop).
Notation hp := (heap T).
Implicit Types (S : aset) (h : hp) (t : trie T).

(* a program runs the same among more nodes, and leaves them alone *)
Definition minus (S2 S : aset) : aset := fun i => S2 i /\ ~ S i.
Lemma wpi_extend {A} (p : prog T A) : forall S S2 h Q, incl_s S S2 -> dom S2 h -> wpi S h p Q ->
  wpi S2 h p (fun r S2' h' => exists S', Q r S' h' /\ incl_s S S' /\ dom S' h' /\ incl_s S' S2' /\ incl_s S2 S2' /\ dom S2' h' /\
     (forall i, S' i -> S2 i -> S i) /\ keeps (minus S2 S) h h').
Proof.
  induction p; intros S S2 h0 Q I D H0; cbn [wpi] in *.
  - exists S. split; [exact H0|]. split; [intros i Hi; exact Hi|]. split; [intros i Hi; apply D, I, Hi|]. split; [exact I|].
    split; [intros i Hi; exact Hi|]. split; [exact D|]. split; [intros i Hi _; exact Hi|]. intros i _. reflexivity.
  - intros h1 R1. assert (D1 : dom S2 h1) by (eapply dom_rely; eauto).
    assert (R1' : rely S h0 h1) by (destruct R1 as [L1 K1]; split; [exact L1|eapply keeps_sub; eauto]).
    specialize (H (length h1) (plus1 (length h1) S) (plus1 (length h1) S2) (h1 ++ [n]) Q).
    eapply wpi_conseq; [apply H|]; clear H.
    + apply incl_plus1_mono. exact I.
    + apply dom_alloc. exact D1.
    + apply H0. exact R1'.
    + cbn beta. intros r S2' h' (S' & A1 & A2 & A3 & A4 & A5 & A6 & A7 & A8). exists S'. conj; auto.
      * eapply incl_trans; [apply incl_plus1|exact A2].
      * eapply incl_trans; [apply incl_plus1|exact A5].
      * intros i Hi H2. destruct (A7 i Hi (or_intror H2)) as [->|X]; [|exact X]. specialize (D1 _ H2). lia.
      * intros i [H2 N]. assert (i <> length h1) by (specialize (D1 _ H2); lia).
        rewrite A8 by (split; [right; exact H2|intros [X|X]; auto]). rewrite nth_error_app1 by auto. apply R1. exact H2.
  - destruct H0 as (Hl & n & E & H0). split; [apply I; exact Hl|]. exists n. split; auto.
  - destruct H0 as (Hl & H0). split; [apply I; exact Hl|]. intros h1 R1. assert (D1 : dom S2 h1) by (eapply dom_rely; eauto).
    assert (R1' : rely S h0 h1) by (destruct R1 as [L1 K1]; split; [exact L1|eapply keeps_sub; eauto]).
    eapply wpi_conseq; [eapply IHp; [exact I|apply dom_upd; exact D1|apply H0; exact R1']|].
    cbn beta. intros r S2' h' (S' & A1 & A2 & A3 & A4 & A5 & A6 & A7 & A8). exists S'. conj; auto.
    intros i [H2 N]. rewrite A8 by (split; auto). rewrite upd_other by (intros ->; auto). apply R1. exact H2.
Qed.
(* calling a program that knows nothing of node z *)
Lemma wpi_call_without {A B} z S S2 h (p : prog T A) (f : A -> prog T B) (R : res A -> aset -> hp -> Prop) Q :
  incl_s S S2 -> dom S2 h -> ~ S z -> S2 z -> owns none p -> wpi S h p R ->
  (forall r S' S2' h', R r S' h' -> incl_s S S' -> dom S' h' -> ~ S' z -> incl_s S' S2' -> incl_s S2 S2' -> dom S2' h' -> keeps S2 h h' ->
     match r with Ok a => wpi S2' h' (f a) Q | Panic => Q Panic S2' h' | OutOfFuel => Q OutOfFuel S2' h' end) ->
  wpi S2 h (pbind p f) Q.
Proof.
  intros I D2 Nz Z2 O H K.
  eapply wpi_call; [exact D2|exact O|eapply wpi_extend; [exact I|exact D2|exact H]|].
  cbn beta. intros r S2' h' (S' & A1 & A2 & A3 & A4 & A5 & A6 & A7 & A8) I2 D3 K3. apply (K r S' S2' h'); auto.
Qed.

(* ---- Map ---- *)
Definition r_map {St : Type} (x : St * trie T) (y : St * ptr) S h : Prop := fst y = fst x /\ repr S h (snd y) (snd x).
Lemma wpi_Map {St : Type} (mapper : prefix -> option T -> St -> St * option T) eq : forall fuel t me st S h,
  dom S h -> repr S h me t -> (depth t < fuel)%nat ->
  wpi S h (h_Map ieq fuel me mapper eq st) (rel r_map (Map t mapper eq st)).
Proof.
  induction fuel as [|fuel IH]; intros t me st S h D R Hf; [lia|].
  cbn [h_Map]. destruct t as [|p d s hh a l r].
  - cbn [repr] in R. subst me. split; reflexivity.
  - pose proof R as RM. cbn [repr] in R. destruct R as (i & c0 & c1 & -> & Hi & Ei & R0 & R1).
    eapply wpi_load; [exact Hi|exact Ei|]. cbn [Map hPrefix hactive hData hc0 hc1].
    apply wpi_alloc; auto. intros z h1 Nz D1 E1 K1.
    destruct (mapper p d st) as [st1 nd].
    assert (Iz : incl_s S (without z (plus1 z S))) by (apply without_plus1; auto).
    eapply wpi_modify; [exact D1|left; reflexivity|exact E1|]. intros h2 D2 E2 K2.
    cbn [w_data hPrefix hactive hData hc0 hc1 hsize Heap.hh] in E2.
    assert (K12 : keeps S h h2) by (eapply keeps_trans; [exact K1|eapply keeps_sub; [exact Iz|exact K2]]).
    apply wpi_bind. unfold lift at 1. cbn [wpi]. destruct (eq d nd) as [e| |]; cbn [bind]; try exact I.
    (* after the data has been settled *)
    assert (REST : forall h3, dom (plus1 z S) h3 -> keeps S h h3 -> nth_error h3 z = Some (mkH p (if e then d else nd) s hh a c0 c1) ->
      wpi (plus1 z S) h3
        (' (st2, l') <- h_Map ieq fuel c0 mapper eq st1;;
         ' (st3, r') <- h_Map ieq fuel c1 mapper eq st2;;
         mutated <- h_mutate (Some z) (fun n => modify n (w_kids l' r'));;
         a0 <- load mutated;; b <- load (Some i);;
         e' <- lift (node_eq ieq a0 b);; (if e' then ret (st3, Some i) else ret (st3, mutated)))
        (rel r_map (bind (Map l mapper eq st1) (fun '(st2, l') => bind (Map r mapper eq st2) (fun '(st3, r') => Ok (st3, mk p (if e then d else nd) a l' r')))))).
    { intros h3 D3 K3 E3.
      assert (Hl : (depth l < fuel)%nat) by (cbn [depth] in Hf; lia). assert (Hr : (depth r < fuel)%nat) by (cbn [depth] in Hf; lia).
      assert (R0' : repr S h3 c0 l) by (eapply repr_keep; [exact R0|apply incl_refl|exact K3]).
      assert (R1' : repr S h3 c1 r) by (eapply repr_keep; [exact R1|apply incl_refl|exact K3]).
      assert (D3' : dom S h3) by (intros j Hj; apply D3; right; exact Hj).
      eapply (wpi_call_without z S); [apply incl_plus1|exact D3|exact Nz|left; reflexivity|eapply ownp_owns; apply ownp_Map|eapply IH; [exact D3'|exact R0'|exact Hl]|].
      cbn beta. intros r4 S4 T4 h4 X4 I4 D4 N4 J4 J4' DT4 K4.
      destruct (Map l mapper eq st1) as [[st2 l']| |], r4 as [[st2' pl]| |]; try contradiction; cbn [bind]; try exact I.
      destruct X4 as [X4 R4]. cbn [fst snd] in X4, R4. subst st2'.
      assert (R1'' : repr S4 h4 c1 r).
      { eapply repr_keep; [exact R1'|exact I4|eapply keeps_sub; [apply incl_plus1|exact K4]]. }
      assert (T4z : T4 z) by (apply J4'; left; reflexivity).
      eapply (wpi_call_without z S4); [exact J4|exact DT4|exact N4|exact T4z|eapply ownp_owns; apply ownp_Map|eapply IH; [exact D4|exact R1''|exact Hr]|].
      cbn beta. intros r5 S5 T5 h5 X5 I5 D5 N5 J5 J5' DT5 K5.
      destruct (Map r mapper eq st2) as [[st3 r']| |], r5 as [[st3' pr]| |]; try contradiction; cbn [bind]; try exact I.
      destruct X5 as [X5 R5]. cbn [fst snd] in X5, R5. subst st3'.
      assert (T5z : T5 z) by (apply J5'; exact T4z).
      assert (E5 : nth_error h5 z = Some (mkH p (if e then d else nd) s hh a c0 c1)).
      { rewrite K5 by exact T4z. rewrite K4 by (left; reflexivity). exact E3. }
      assert (Hi5 : S5 i) by (apply I5, I4; exact Hi).
      assert (Ei5 : nth_error h5 i = Some (mkH p d s hh a c0 c1)).
      { rewrite K5 by (apply J4, I4; exact Hi). rewrite K4 by (right; exact Hi). rewrite K3 by exact Hi. exact Ei. }
      assert (S5T : incl_s S5 (without z T5)) by (intros j Hj; split; [apply J5; exact Hj|intros ->; auto]).
      apply wpi_bind. apply wpi_mutate. eapply wpi_modify_last; [exact DT5|exact T5z|exact E5|]. intros h6 D6 E6 K6.
      eexists _, l', r'. conj; eauto.
      - eapply repr_keep; [exact R4| |].
        + eapply incl_trans; [exact I5|exact S5T].
        + eapply keeps_trans; [eapply keeps_sub; [exact J4|exact K5]|]. eapply keeps_sub; [eapply incl_trans; [exact I5|exact S5T]|exact K6].
      - eapply repr_keep; [exact R5|exact S5T|eapply keeps_sub; [exact S5T|exact K6]].
      - intros h7 D7 K7 E7 R7. cbn [w_kids hPrefix hactive hData hc0 hc1 hsize Heap.hh] in E7, R7.
        assert (Ei7 : nth_error h7 i = Some (mkH p d s hh a c0 c1)).
        { rewrite K7 by (apply S5T; exact Hi5). rewrite K6 by (apply S5T; exact Hi5). exact Ei5. }
        eapply wpi_load; [exact T5z|exact E7|]. eapply wpi_load; [apply J5; exact Hi5|exact Ei7|].
        apply wpi_bind. unfold lift. cbn [wpi].
        match goal with |- context[node_eq ieq ?x ?y] => destruct (node_eq_ok ieq x y IEQ) as (e' & -> & He) end.
        destruct e'; [|apply wpi_ret; split; [reflexivity|exact R7]]. apply wpi_ret. split; [reflexivity|]. cbn [snd].
        specialize (He eq_refl). unfold mk in R7 |- *. cbn [repr] in R7 |- *. destruct R7 as (j & x0 & x1 & [= <-] & _ & X & Y & Z).
        exists i, x0, x1. conj; auto. rewrite Ei7, <- He. rewrite E7 in X. exact X. }
    destruct e.
    + eapply wpi_modify; [exact D2|left; reflexivity|exact E2|]. intros h3 D3 E3 K3. apply REST; auto.
      eapply keeps_trans; [exact K12|eapply keeps_sub; [exact Iz|exact K3]].
    + apply wpi_bind. apply wpi_ret. apply REST; auto.
Qed.

(* ---- Diff ---- *)
Lemma repr_ptr_eq S h p q t t' : repr S h p t -> repr S h q t' -> ptr_eqb p q = true -> t = t'.
Proof.
  intros A B E. assert (p = q) as <-.
  { destruct p, q; cbn in E; try discriminate; auto. apply Nat.eqb_eq in E. congruence. }
  eapply repr_det; eauto.
Qed.
Definition same_state {A} S h (x : A) : res A -> aset -> hp -> Prop := fun r S' h' => r = Ok x /\ S' = S /\ h' = h.
Lemma wpi_read {A B} S h (p : prog T A) (f : A -> prog T B) x Q : wpi S h p (same_state S h x) -> wpi S h (f x) Q -> wpi S h (pbind p f) Q.
Proof. intros H K. apply wpi_bind. eapply wpi_conseq; [exact H|]. cbn beta. intros r S' h' (-> & -> & ->). exact K. Qed.

Ltac ss := (split; [reflexivity|split; reflexivity]).
Section Diff.
Context {St : Type}.
Variable H : @hHandler T St.
Variable eq : comparator T.
Variable f : option T -> option T -> bool.
Hypothesis skip_ok : hSame H = None -> forall d, f d d = true.
Let react := on_event (Some (hRemoved H)) (Some (hAdded H)) (Some (hModified H)) (hSame H).

Lemma hi_rem S h p d s hh a c0 c1 l r st : 
  hi_Removed H (mkH p d s hh a c0 c1) st = @ret T _ (run_list react (ev_rem (Node p d s hh a l r)) st).
Proof. unfold hi_Removed, ev_rem. cbn. destruct a; cbn; [|reflexivity]. destruct (hRemoved H p d st) as [st' [|]]; reflexivity. Qed.
Lemma hi_add S h p d s hh a c0 c1 l r st : 
  hi_Added H (mkH p d s hh a c0 c1) st = @ret T _ (run_list react (ev_add (Node p d s hh a l r)) st).
Proof. unfold hi_Added, ev_add. cbn. destruct a; cbn; [|reflexivity]. destruct (hAdded H p d st) as [st' [|]]; reflexivity. Qed.
Lemma hi_mod S h p d s hh a c0 c1 l r p' d' s' hh' a' c0' c1' l' r' st : okpair f eq (Node p d s hh a l r) (Node p' d' s' hh' a' l' r') ->
  wpi S h (hi_Modified H eq (mkH p d s hh a c0 c1) (mkH p' d' s' hh' a' c0' c1') st)
    (same_state S h (run_list react (ev_same f (Node p d s hh a l r) (Node p' d' s' hh' a' l' r')) st)).
Proof.
  intros OK. unfold hi_Modified. cbn [hactive hData hPrefix]. destruct a, a'; cbn [andb].
  - specialize (OK (p, d) (p', d') (or_introl eq_refl) (or_introl eq_refl)). cbn in OK. unfold lift. rewrite OK. cbn.
    unfold react, on_event. destruct (f d d'); cbn.
    + destruct (hSame H) as [g|]; cbn; [|ss]. destruct (g p d st) as [st' [|]]; ss.
    + destruct (hModified H p d d' st) as [st' [|]]; ss.
  - cbn. destruct (hRemoved H p d st) as [st' [|]]; ss.
  - cbn. destruct (hAdded H p' d' st) as [st' [|]]; ss.
  - cbn. ss.
Qed.

Lemma wpi_diff : forall fuel l r pl pr st S h, repr S h pl l -> repr S h pr r -> okpair f eq l r -> dm l r < N.of_nat fuel ->
  wpi S h (h_diff W fuel pl pr H eq st) (same_state S h (run_list react (devs W f fuel l r) st)).
Proof.
  induction fuel as [|fuel IH]; intros l r pl pr st S h Rl Rr OK Hm; [lia|].
  cbn [h_diff]. destruct (ptr_eqb pl pr && _) eqn:Ep.
  { apply andb_prop in Ep. destruct Ep as [Ep En]. assert (l = r) as <- by (eapply repr_ptr_eq; eauto).
    assert (hSame H = None) as Es by (destruct (hSame H); [discriminate|reflexivity]).
    apply wpi_ret. split; [|split; reflexivity]. f_equal. symmetry. apply run_list_noop. intros e He st'.
    pose proof (devs_refl W f (Datatypes.S fuel) l (skip_ok Es)) as F. rewrite Forall_forall in F.
    specialize (F _ He). destruct e; try contradiction. unfold react, on_event. rewrite Es. reflexivity. }
  clear Ep.
  assert (K : forall nl0 nl1 nr0 nr1 q0 q1 s0 s1 hd st,
     repr S h q0 nl0 -> repr S h q1 nl1 -> repr S h s0 nr0 -> repr S h s1 nr1 ->
     incl (entries nl0) (entries l) -> incl (entries nl1) (entries l) ->
     incl (entries nr0) (entries r) -> incl (entries nr1) (entries r) ->
     dm nl0 nr0 < N.of_nat fuel -> dm nl1 nr1 < N.of_nat fuel ->
     wpi S h ('(st1, go) <- ret (run_list react hd st) ;;
      if negb go then ret (st1, false)
      else '(st2, go2) <- h_diff W fuel q0 s0 H eq st1 ;;
           if negb go2 then ret (st2, false)
           else '(st3, go3) <- h_diff W fuel q1 s1 H eq st2 ;;
                if negb go3 then ret (st3, false) else ret (st3, true))
     (same_state S h (run_list react (hd ++ (devs W f fuel nl0 nr0 ++ devs W f fuel nl1 nr1)) st))).
  { intros nl0 nl1 nr0 nr1 q0 q1 s0 s1 hd st0 A0 A1 B0 B1 I1 I2 I3 I4 M1 M2.
    rewrite !run_list_app. apply wpi_bind. apply wpi_ret.
    destruct (run_list react hd st0) as [st1 [|]]; cbn [negb]; [|apply wpi_ret; ss].
    eapply wpi_read; [apply (IH nl0 nr0); auto; eapply okpair_sub; eassumption|].
    rewrite run_list_app.
    destruct (run_list react (devs W f fuel nl0 nr0) st1) as [st2 [|]]; cbn [negb]; [|apply wpi_ret; ss].
    eapply wpi_read; [apply (IH nl1 nr1); auto; eapply okpair_sub; eassumption|].
    destruct (run_list react (devs W f fuel nl1 nr1) st2) as [st3 [|]]; apply wpi_ret; ss. }
  assert (NIL : repr S h None (@Nil T)) by reflexivity.
  destruct l as [|lp dl sl hl al ll lr]; destruct r as [|rp dr sr hr ar rl rr].
  - cbn [repr] in Rl, Rr. subst pl pr. apply wpi_ret. ss.
  - pose proof Rr as Rr'. cbn [repr] in Rl, Rr. destruct Rr as (i & c0 & c1 & -> & Hi & Ei & R0 & R1). subst pl.
    eapply wpi_load; [exact Hi|exact Ei|]. rewrite (hi_add S h _ _ _ _ _ _ _ rl rr). cbn [devs hc0 hc1].
    apply K; auto using incl_child0, incl_child1, incl_setl, incl_setr;
      unfold dm in *; cbn [setl setr child0 child1 WF.depth] in *; destruct rl, rr; lia.
  - pose proof Rl as Rl'. cbn [repr] in Rl, Rr. destruct Rl as (i & c0 & c1 & -> & Hi & Ei & R0 & R1). subst pr.
    eapply wpi_load; [exact Hi|exact Ei|]. rewrite (hi_rem S h _ _ _ _ _ _ _ ll lr). cbn [devs hc0 hc1].
    apply K; auto using incl_child0, incl_child1, incl_setl, incl_setr;
      unfold dm in *; cbn [setl setr child0 child1 WF.depth] in *; destruct ll, lr; lia.
  - pose proof Rl as Rl'. pose proof Rr as Rr'. cbn [repr] in Rl, Rr.
    destruct Rl as (i & c0 & c1 & -> & Hi & Ei & R0 & R1). destruct Rr as (j & e0 & e1 & -> & Hj & Ej & S0 & S1).
    eapply wpi_load; [exact Hi|exact Ei|]. eapply wpi_load; [exact Hj|exact Ej|]. cbn [devs hPrefix].
    destruct (compare W lp rp) as [[[result rev] common] child]. cbn [hc0 hc1].
    destruct result.
    + eapply wpi_read; [apply (hi_mod S h _ _ _ _ _ _ _ ll lr _ _ _ _ _ _ _ rl rr); exact OK|].
      apply (K ll lr rl rr c0 c1 e0 e1 (ev_same f (Node lp dl sl hl al ll lr) (Node rp dr sr hr ar rl rr)) st);
        auto using incl_child0, incl_child1, incl_setl, incl_setr.
      1-4: intros x Hx; cbn [entries]; rewrite !in_app_iff; auto.
      all: unfold dm in *; cbn [setl setr child0 child1 WF.depth] in *.
      { destruct ll, rl; lia. } { destruct lr, rr; lia. }
    + rewrite (hi_rem S h _ _ _ _ _ _ _ ll lr). destruct child; apply K; auto using incl_child0, incl_child1, incl_setl, incl_setr, incl_nil, List.incl_refl;
        unfold dm in *; cbn [setl setr child0 child1 WF.depth] in *; destruct ll, lr; cbn [WF.depth] in *; lia.
    + rewrite (hi_add S h _ _ _ _ _ _ _ rl rr). destruct child; apply K; auto using incl_child0, incl_child1, incl_setl, incl_setr, incl_nil, List.incl_refl;
        unfold dm in *; cbn [setl setr child0 child1 WF.depth] in *; destruct rl, rr; cbn [WF.depth] in *; lia.
    + change (@ret T (St * bool) (st, true)) with (@ret T _ (run_list react [] st)).
      destruct child; apply K; auto using incl_nil, List.incl_refl; unfold dm in *; cbn [WF.depth] in *; lia.
Qed.
End Diff.

(* ---- Equal ---- *)
Definition nop : trie T -> trie T -> bool := fun _ _ => false.
Definition same_res {A} S h (x : res A) : res A -> aset -> hp -> Prop := fun r S' h' => r = x /\ S' = S /\ h' = h.
Lemma wpi_reads {A B} S h (p : prog T A) (f : A -> prog T B) x Q : wpi S h p (same_res S h x) ->
  match x with Ok a => wpi S h (f a) Q | Panic => Q Panic S h | OutOfFuel => Q OutOfFuel S h end -> wpi S h (pbind p f) Q.
Proof. intros H K. apply wpi_bind. eapply wpi_conseq; [exact H|]. cbn beta. intros r S' h' (-> & -> & ->). exact K. Qed.
Lemma Equal_self eq t : (forall e, In e (entries t) -> eq (snd e) (snd e) = Ok true) -> Equal nop t t eq = Ok true.
Proof.
  induction t as [|p d s hh a l IHl r IHr]; intros H; [reflexivity|]. cbn [Equal nop].
  assert (B : Bool.eqb a a = true) by (destruct a; reflexivity). rewrite B. cbn [negb].
  assert (P : prefix_eqb p p = true) by (unfold prefix_eqb; rewrite !N.eqb_refl; reflexivity). rewrite P. cbn [negb].
  assert (E : (if a then eq d d else Ok true) = Ok true).
  { destruct a; [|reflexivity]. apply (H (p, d)). left. reflexivity. }
  rewrite E. cbn [bind negb]. rewrite IHl, IHr; [reflexivity| |]; intros e He; apply H; cbn [entries]; rewrite !in_app_iff; auto.
Qed.
Lemma wpi_Equal eq : forall fuel l r pl pr S h, repr S h pl l -> repr S h pr r -> (forall e, In e (entries l) -> eq (snd e) (snd e) = Ok true) ->
  (depth l < fuel)%nat -> wpi S h (h_Equal fuel pl pr eq) (same_res S h (Equal nop l r eq)).
Proof.
  induction fuel as [|fuel IH]; intros l r pl pr S h Rl Rr RF Hf; [lia|].
  cbn [h_Equal]. destruct (ptr_eqb pl pr) eqn:Ep.
  { assert (l = r) as <- by (eapply repr_ptr_eq; eauto). apply wpi_ret. rewrite Equal_self by auto. ss. }
  rewrite (repr_nilp _ _ _ _ Rl), (repr_nilp _ _ _ _ Rr).
  destruct l as [|p d s hh a ll lr]; destruct r as [|p' d' s' hh' a' rl rr]; cbn [is_nil Equal nop].
  - cbn in Rl, Rr. subst. discriminate.
  - apply wpi_ret. ss.
  - apply wpi_ret. ss.
  - cbn [repr] in Rl, Rr. destruct Rl as (i & c0 & c1 & -> & Hi & Ei & R0 & R1). destruct Rr as (j & e0 & e1 & -> & Hj & Ej & S0 & S1).
    eapply wpi_load; [exact Hi|exact Ei|]. eapply wpi_load; [exact Hj|exact Ej|]. cbn [hactive hPrefix hData hc0 hc1].
    destruct (negb (Bool.eqb a a')); [apply wpi_ret; ss|]. destruct (negb (prefix_eqb p p')); [apply wpi_ret; ss|].
    apply wpi_reads with (x := if a then eq d d' else Ok true). { destruct a; ss. }
    destruct (if a then eq d d' else Ok true) as [b| |]; cbn [bind]; [|ss|ss].
    destruct (negb b); [apply wpi_ret; ss|].
    eapply wpi_reads; [apply (IH ll rl); auto|].
    { intros e He. apply RF. cbn [entries]. rewrite !in_app_iff. auto. } { cbn [depth] in Hf. lia. }
    destruct (Equal nop ll rl eq) as [b0| |]; cbn [bind]; [|ss|ss]. destruct (negb b0); [apply wpi_ret; ss|].
    eapply wpi_reads; [apply (IH lr rr); auto|].
    { intros e He. apply RF. cbn [entries]. rewrite !in_app_iff. auto. } { cbn [depth] in Hf. lia. }
    destruct (Equal nop lr rr eq) as [b1| |]; cbn [bind]; [|ss|ss]. destruct (negb b1); apply wpi_ret; ss.
Qed.

(* ---- Aggregate ---- *)
(* nodes that are not entries carry no Data *)
Fixpoint tidy t : Prop :=
  match t with Nil => True | Node _ d _ _ a l r => (a = false -> d = None) /\ tidy l /\ tidy r end.
Section Aggregate.
Variable eq : comparator T.
Hypothesis eq_total : forall x y, exists b, eq x y = Ok b.
Hypothesis eq_sym : forall x y, eq x y = Ok true -> eq y x = Ok true.
Hypothesis eq_nil : forall x, eq x None = Ok true -> x = None.

Lemma wpi_createReturnValue S h i p d s hh a c0 c1 ml mr ia data pl pr l r k :
  dom S h -> S i -> nth_error h i = Some (mkH p d s hh a c0 c1) -> repr S h c0 ml -> repr S h c1 mr ->
  wf W k (Node p d s hh a ml mr) -> (a = false -> d = None) -> repr S h pl l -> repr S h pr r ->
  wpi S h (h_createReturnValue ieq (Some i) ia data pl pr eq) (rel r_t (createReturnValue nop (Node p d s hh a ml mr) ia data l r eq)).
Proof.
  intros D Hi Ei R0 R1 Hw Ti Rl Rr. unfold h_createReturnValue. cbn [createReturnValue].
  eapply wpi_load; [exact Hi|exact Ei|]. cbn [hactive hData hc0 hc1].
  assert (SK : (if Bool.eqb ia a && (nop l ml && nop r mr) then eq data d else Ok false) = Ok false) by (destruct (Bool.eqb ia a); reflexivity).
  rewrite SK. clear SK. cbn [bind].
  set (RES := if ia then bind _ _ else _).
  (* copying gives the result whenever it is reached *)
  assert (COPY : wpi S h
    (h_copyMutate ieq (Some i) (fun n : nat =>
      modify n (w_active ia) ;;;
      (if ia then
         x <- load (Some n) ;;
         replace <- match hData x with
                    | None => ret true
                    | Some _ => e <- lift (eq (hData x) data) ;; ret (negb e)
                    end ;;
         (if replace then modify n (w_data data) else ret tt)
       else modify n (w_data None)) ;;;
      modify n (w_kids pl pr))) (rel r_t RES)).
  { pose (rb := match d with None => true | Some _ => match eq d data with Ok e => negb e | _ => true end end).
    assert (RE : RES = Ok (mk p (if ia then if rb then data else d else None) ia l r)).
    { unfold RES, rb. destruct ia; [|reflexivity]. destruct d as [d|]; [|reflexivity]. destruct (eq_total (Some d) data) as (b & ->). reflexivity. }
    rewrite RE. eapply wpi_copy with (n1 := mkH p (if ia then if rb then data else d else None) s hh ia pl pr) (t0 := l) (t1 := r); eauto.
    intros z h1 Nz D1 E1 K1.
    assert (Iz : incl_s S (without z (plus1 z S))) by (apply without_plus1; auto).
    eapply wpi_modify; [exact D1|left; reflexivity|exact E1|]. intros h2 D2 E2 K2.
    change (nth_error h2 z = Some (mkH p d s hh ia c0 c1)) in E2.
    assert (K12 : keeps S h h2) by (eapply keeps_trans; [exact K1|eapply keeps_sub; [exact Iz|exact K2]]).
    assert (LAST : forall h3 dd, dom (plus1 z S) h3 -> keeps S h h3 -> nth_error h3 z = Some (mkH p dd s hh ia c0 c1) ->
       wpi (plus1 z S) h3 (modify z (w_kids pl pr)) (fun r0 S' h' => r0 = Ok tt /\ S' = plus1 z S /\ dom S' h' /\
           nth_error h' z = Some (mkH p dd s hh ia pl pr) /\ keeps S h h')).
    { intros h3 dd D3 K3 E3. eapply wpi_modify_last; [exact D3|left; reflexivity|exact E3|]. intros h4 D4 E4 K4. conj; auto.
      eapply keeps_trans; [exact K3|eapply keeps_sub; [exact Iz|exact K4]]. }
    destruct ia.
    - apply wpi_bind. eapply wpi_load; [left; reflexivity|exact E2|]. cbn [hData].
      apply wpi_bind. apply wpi_conseq with (Q := fun r0 S' h' => r0 = Ok rb /\ S' = plus1 z S /\ h' = h2).
      { unfold rb. destruct d as [d|]; [|apply wpi_ret; auto]. unfold lift. destruct (eq_total (Some d) data) as (b & Eb). rewrite Eb. cbn [pbind]. apply wpi_ret. conj; reflexivity. }
      cbn beta. intros r0 S' h' (-> & -> & ->). destruct rb.
      + eapply wpi_modify_last; [exact D2|left; reflexivity|exact E2|]. intros h3 D3 E3 K3. apply LAST; auto.
        eapply keeps_trans; [exact K12|eapply keeps_sub; [exact Iz|exact K3]].
      + apply wpi_ret. apply LAST; auto.
    - eapply wpi_modify; [exact D2|left; reflexivity|exact E2|]. intros h3 D3 E3 K3. apply LAST; auto.
      eapply keeps_trans; [exact K12|eapply keeps_sub; [exact Iz|exact K3]]. }
  destruct (Bool.eqb ia a && (ptr_eqb pl c0 && ptr_eqb pr c1)) eqn:B.
  - apply andb_prop in B. destruct B as [B1 B2]. apply andb_prop in B2. destruct B2 as [B2 B3]. apply Bool.eqb_prop in B1. subst ia.
    assert (l = ml) by (eapply repr_ptr_eq; eauto). assert (r = mr) by (eapply repr_ptr_eq; eauto). subst l r.
    destruct (eq_total data d) as (b & Eb). apply wpi_bind. unfold lift at 1. cbn [wpi]. rewrite Eb. destruct b; [|exact COPY].
    apply wpi_ret. unfold RES. cbn [negb].
    assert (RM : repr S h (Some i) (mk p d a ml mr)).
    { rewrite <- (wf_node W k p d s hh a ml mr Hw). exists i, c0, c1. conj; auto. }
    destruct a; [|rewrite (Ti eq_refl) in RM; exact RM].
    destruct d as [d|].
    + apply eq_sym in Eb. rewrite Eb. exact RM.
    + apply eq_nil in Eb. subst data. exact RM.
  - apply wpi_bind. apply wpi_ret. exact COPY.
Qed.
Lemma wpi_aggregate : forall fuel t me k u S h,
  dom S h -> repr S h me t -> wf W k t -> tidy t -> (depth t < fuel)%nat ->
  wpi S h (h_aggregate ieq fuel me u eq) (rel r_t (aggregate nop t u eq)).
Proof.
  induction fuel as [|fuel IH]; intros t me k u S h D R Hw Ti Hf; [lia|].
  cbn [h_aggregate]. destruct t as [|p d s hh a l r].
  - cbn [repr] in R. subst me. reflexivity.
  - pose proof R as RM. cbn [repr] in R. destruct R as (i & c0 & c1 & -> & Hi & Ei & R0 & R1). destruct Ti as (T1 & T2 & T3).
    pose proof (wf_kid W k p d s hh a l r false Hw) as Wl. pose proof (wf_kid W k p d s hh a l r true Hw) as Wr. cbn [kid] in Wl, Wr.
    assert (Hl : (depth l < fuel)%nat) by (cbn [depth] in Hf; lia). assert (Hr : (depth r < fuel)%nat) by (cbn [depth] in Hf; lia).
    eapply wpi_load; [exact Hi|exact Ei|]. cbn [hactive hData hc0 hc1 hPrefix].
    assert (HEAD : exists u' ia data,
      wpi S h (if a then match u with
           | None => ret (Some d, true, d)
           | Some ud => e <- lift (eq ud d) ;; if negb e then ret (Some d, true, d) else ret (u, false, None)
           end else ret (u, false, d)) (same_res S h (Ok (u', ia, data))) /\
      (if a then match u with
           | None => Ok (Some d, true, d)
           | Some ud => bind (eq ud d) (fun e => if negb e then Ok (Some d, true, d) else Ok (u, false, None))
           end else Ok (u, false, d)) = Ok (u', ia, data)).
    { destruct a; [destruct u as [ud|]|].
      - destruct (eq_total ud d) as (b & E). unfold lift. rewrite E. destruct b; cbn; eexists _, _, _; (split; [ss|reflexivity]).
      - eexists _, _, _. split; [ss|reflexivity].
      - eexists _, _, _. split; [ss|reflexivity]. }
    destruct HEAD as (u' & ia & data & HEAD1 & HEAD2). eapply wpi_reads; [exact HEAD1|]. cbn [aggregate]. rewrite HEAD2. cbn [bind]. clear HEAD1 HEAD2.
    eapply wpi_call; [exact D|eapply ownp_owns; apply ownp_aggregate|eapply (IH l c0 _ u' S h D R0 Wl T2 Hl)|].
    cbn beta. intros x1 S1 h1 X1 I1 D1 K1. destruct (aggregate nop l u' eq) as [l1| |], x1 as [pl| |]; try contradiction; cbn [bind]; try exact I. cbn [rel r_t] in X1. unfold r_t in X1.
    assert (R1' : repr S1 h1 c1 r) by (eapply repr_keep; eauto).
    eapply wpi_call; [exact D1|eapply ownp_owns; apply ownp_aggregate|eapply (IH r c1 _ u' S1 h1 D1 R1' Wr T3 Hr)|].
    cbn beta. intros x2 S2 h2 X2 I2 D2 K2. destruct (aggregate nop r u' eq) as [r1| |], x2 as [pr| |]; try contradiction; cbn [bind]; try exact I. cbn [rel] in X2. unfold r_t in X2.
    assert (X1' : repr S2 h2 pl l1) by (eapply repr_keep; eauto). clear X1.
    eapply wpi_active; [exact X1'|]. eapply wpi_active; [exact X2|].
    assert (Hi2 : S2 i) by auto.
    assert (Ei2 : nth_error h2 i = Some (mkH p d s hh a c0 c1)) by (rewrite K2 by auto; rewrite K1 by auto; exact Ei).
    assert (Q0 : repr S2 h2 c0 l) by (eapply repr_keep; [eapply repr_keep; eauto|exact I2|exact K2]).
    assert (Q1 : repr S2 h2 c1 r) by (eapply repr_keep; eauto).
    assert (NIL : repr S2 h2 None (@Nil T)) by reflexivity.
    assert (CRV : forall ia data ql qr tl tr, repr S2 h2 ql tl -> repr S2 h2 qr tr ->
      wpi S2 h2 (h_createReturnValue ieq (Some i) ia data ql qr eq) (rel r_t (createReturnValue nop (Node p d s hh a l r) ia data tl tr eq))).
    { intros. eapply wpi_createReturnValue; eauto. }
    assert (TAIL : forall ia data ql qr tl tr, repr S2 h2 ql tl -> repr S2 h2 qr tr ->
      wpi S2 h2 (if ia : bool then h_createReturnValue ieq (Some i) ia data ql qr eq
                 else if nilp ql then ret qr else if nilp qr then ret ql
                 else h_createReturnValue ieq (Some i) ia data ql qr eq)
        (rel r_t (if ia then createReturnValue nop (Node p d s hh a l r) ia data tl tr eq
                  else if is_nil tl then Ok tr else if is_nil tr then Ok tl
                  else createReturnValue nop (Node p d s hh a l r) ia data tl tr eq))).
    { intros ia0 data0 ql qr tl tr A B. destruct ia0; [apply CRV; auto|]. rewrite (repr_nilp _ _ _ _ A), (repr_nilp _ _ _ _ B).
      destruct (is_nil tl); [exact B|]. destruct (is_nil tr); [exact A|]. apply CRV; auto. }
    destruct l1 as [|lp ld ls lh la ll lr]; [cbn [active andb bind]; apply wpi_bind; apply wpi_ret; apply wpi_bind; apply wpi_ret; apply TAIL; auto|].
    destruct r1 as [|rp rd rs rh ra rl rr]; [destruct la; cbn [active andb bind]; apply wpi_bind; apply wpi_ret; apply wpi_bind; apply wpi_ret; apply TAIL; auto|].
    cbn [active prefix_of data_of].
    destruct la; [|cbn [andb bind]; apply wpi_bind; apply wpi_ret; apply wpi_bind; apply wpi_ret; apply TAIL; auto].
    destruct ra; [|cbn [andb bind]; apply wpi_bind; apply wpi_ret; apply wpi_bind; apply wpi_ret; apply TAIL; auto].
    cbn [andb]. pose proof X1' as Y1. pose proof X2 as Y2. cbn [repr] in Y1, Y2.
    destruct Y1 as (j & j0 & j1 & -> & Hj & Ej & _). destruct Y2 as (m & m0 & m1 & -> & Hm & Em & _).
    assert (CA : exists b, (if (plen lp =? plen p + 1) && (plen lp =? plen rp) then eq ld rd else Ok false) = Ok b).
    { destruct (_ && _); [apply eq_total|eauto]. }
    destruct CA as (ca & CA). apply wpi_reads with (x := Ok ca).
    { eapply wpi_load; [exact Hj|exact Ej|]. eapply wpi_load; [exact Hm|exact Em|]. cbn [hPrefix hData].
      destruct ((plen lp =? plen p + 1) && (plen lp =? plen rp)); unfold lift; rewrite ?CA; [|injection CA as <-]; ss. }
    rewrite CA. cbn [bind]. destruct ca.
    + apply wpi_reads with (x := Ok (true, ld, None, None)). { eapply wpi_load; [exact Hj|exact Ej|]. ss. }
      apply (TAIL true ld None None Nil Nil); auto.
    + apply wpi_bind; apply wpi_ret; apply TAIL; auto.
Qed.
End Aggregate.
End Refine.
