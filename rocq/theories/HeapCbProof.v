(* HeapCbProof.v - proofs about walks, diffs and maps whose callbacks are programs *)
From Verif Require Export HeapCb.
From Verif Require Import HeapCost TableThm DiffProof.
From Coq Require Import Arith ZifyBool ZifyNat ZifyN.
Local Open Scope prog_scope.

(* call f on the elements of a list, in order, until the first false *)
Fixpoint each {T A S} (f : A -> S -> prog T (S * bool)) (l : list A) (st : S) : prog T (S * bool) :=
  match l with
  | [] => ret (st, true)
  | x :: l' => '(st', go) <- f x st ;; if go then each f l' st' else ret (st', false)
  end.

Section P.
Variable W : N.
Context {T : Type}.
Variable ieq : option T -> option T -> res bool.
Notation M := (prog T).

(* a program that stores only to nodes it allocated itself *)
Definition calm {A} (m : M A) : Prop := forall O, ownp O m any.
Definition grows (h h' : heap T) : Prop :=
  (length h <= length h')%nat /\ forall i, (i < length h)%nat -> nth_error h' i = nth_error h i.
Lemma grows_refl h : grows h h. Proof. split; auto. Qed.
Lemma grows_trans a b c : grows a b -> grows b c -> grows a c.
Proof. intros [H1 H2] [K1 K2]. split; [lia|]. intros i Hi. rewrite K2 by lia. auto. Qed.
Lemma grows_denotes h h' p (t : trie T) : grows h h' -> denotes h p t -> denotes h' p t.
Proof. intros [_ K]. apply denotes_grow. exact K. Qed.
Lemma calm_grows {A} (m : M A) h : calm m -> grows h (fst (run m h)).
Proof.
  intros H. destruct (owns_run m none h (ownp_owns _ _ _ (H none))) as [A1 A2]. split; auto.
Qed.
Lemma calm_done {A} (r : res A) : calm (Done r). Proof. intros O. destruct r; exact I. Qed.
Lemma calm_bind {A B} (m : M A) (k : A -> M B) : calm m -> (forall a, calm (k a)) -> calm (pbind m k).
Proof. intros H K O. apply ownp_bind_any; [apply H|]. intros. apply K. Qed.
Lemma calm_load p : calm (@load T p). Proof. intros O. apply ownp_load. Qed.
Lemma calm_if {A} (b : bool) (m k : M A) : calm m -> calm k -> calm (if b then m else k).
Proof. destruct b; auto. Qed.

Definition calmH {S} (H : eHandler S) : Prop :=
  (forall p d s, calm (eRemoved H p d s)) /\ (forall p d s, calm (eAdded H p d s)) /\
  (forall p d d' s, calm (eModified H p d d' s)) /\ (forall f, eSame H = Some f -> forall p d s, calm (f p d s)).
Ltac cm := repeat first [apply calm_done | apply calm_load | apply calm_if | apply calm_bind; [|intros ?] | match goal with |- calm (match ?x with _ => _ end) => destruct x eqn:? end]; eauto.
Lemma calm_rem {S} (H : eHandler S) n st : calmH H -> calm (ei_Removed H n st).
Proof. intros (H1 & H2 & H3 & H4). unfold ei_Removed. cm. Qed.
Lemma calm_add {S} (H : eHandler S) n st : calmH H -> calm (ei_Added H n st).
Proof. intros (H1 & H2 & H3 & H4). unfold ei_Added. cm. Qed.
Lemma calm_mod {S} (H : eHandler S) eq l r st : calmH H -> calm (ei_Modified H eq l r st).
Proof. intros (H1 & H2 & H3 & H4). unfold ei_Modified. cm. Qed.
Lemma calm_kids p : calm (@h_children T p).
Proof. unfold h_children. cm. Qed.
Lemma calm_diffE {S} (H : eHandler S) eq : calmH H -> forall fuel l r st, calm (h_diffE W fuel l r H eq st).
Proof.
  intros C. induction fuel as [|fuel IH]; intros l r st; cbn [h_diffE]; [apply calm_done|].
  apply calm_if; [apply calm_done|].
  assert (K : forall result child (head : M (S * bool)), calm head -> calm (
        '(st1, go) <- head ;;
        if negb go then ret (st1, false)
        else
          '(nl, nr) <-
            match result with
            | compareSame => a <- h_children l ;; b <- h_children r ;; ret (a, b)
            | compareIsContained => b <- h_children r ;; ret (at_child child l, b)
            | compareContains => a <- h_children l ;; ret (a, at_child child r)
            | compareDisjoint => ret (at_child (negb child) l, at_child child r)
            end ;;
          '(st2, go2) <- h_diffE W fuel (fst nl) (fst nr) H eq st1 ;;
          if negb go2 then ret (st2, false)
          else
            '(st3, go3) <- h_diffE W fuel (snd nl) (snd nr) H eq st2 ;;
            if negb go3 then ret (st3, false) else ret (st3, true))).
  { intros result child head Hh. apply calm_bind; [exact Hh|]. intros [st1 go]. apply calm_if; [apply calm_done|].
    apply calm_bind.
    { destruct result; repeat (apply calm_bind; [apply calm_kids|intros ?]); apply calm_done. }
    intros [nl nr]. apply calm_bind; [apply IH|]. intros [st2 go2]. apply calm_if; [apply calm_done|].
    apply calm_bind; [apply IH|]. intros [st3 go3]. apply calm_if; apply calm_done. }
  cbv zeta. destruct l as [i|], r as [j|].
  - apply calm_bind; [apply calm_load|]. intros nl. apply calm_bind; [apply calm_load|]. intros nr.
    destruct (compare W (hPrefix nl) (hPrefix nr)) as [[[result rev] com] child].
    apply K. destruct result; [apply calm_mod|apply calm_rem|apply calm_add|apply calm_done]; auto.
  - apply calm_bind; [apply calm_load|]. intros nl. apply (K compareContains false). apply calm_rem; auto.
  - apply calm_bind; [apply calm_load|]. intros nr. apply (K compareIsContained false). apply calm_add; auto.
  - apply calm_done.
Qed.
Lemma calm_WalkE {S} me (cb : prefix -> option T -> S -> M (S * bool)) st : (forall p d s, calm (cb p d s)) -> calm (h_WalkE W me cb st).
Proof. intros H. apply calm_diffE. split; [|split; [|split]]; cbn; intros; try apply calm_done; auto. discriminate. Qed.
Lemma calm_MapE {S} (mapper : prefix -> option T -> S -> M (S * option T)) eq : (forall p d s, calm (mapper p d s)) ->
  forall fuel me st, calm (h_MapE ieq fuel me mapper eq st).
Proof.
  intros C. induction fuel as [|fuel IH]; intros me st O; cbn [h_MapE]; [exact I|]. destruct me as [i|]; [|exact I].
  apply ownp_bind_any; [apply ownp_load|]. intros m O1 I1.
  eapply ownp_bind; [apply ownp_alloc|]. cbn beta. intros z O2 I2 Hz.
  apply ownp_bind_any; [apply C|]. intros [st1 nd] O3 I3.
  apply ownp_bind_any; [apply ownp_modify; auto|]. intros [] O4 I4.
  apply ownp_bind_any; [apply ownp_load|]. intros m1 O5 I5.
  apply ownp_bind_any; [apply ownp_lift_any|]. intros e O6 I6.
  apply ownp_bind_any.
  { destruct e; [|apply ownp_ret_any]. apply ownp_bind_any; [apply ownp_load|]. intros m2 O7 I7. apply ownp_modify. auto 8. }
  intros [] O7 I7. apply ownp_bind_any; [apply ownp_load|]. intros m3 O8 I8.
  apply ownp_bind_any; [apply IH|]. intros [st2 l'] O9 I9.
  apply ownp_bind_any; [apply ownp_load|]. intros m4 O10 I10.
  apply ownp_bind_any; [apply IH|]. intros [st3 r'] O11 I11.
  apply ownp_bind_any. { apply ownp_mutate; [auto 12|]. intros; apply ownp_modify; auto 12. }
  intros mu O12 I12. apply ownp_bind_any; [apply ownp_load|]. intros a O13 I13.
  apply ownp_bind_any; [apply ownp_load|]. intros b O14 I14.
  apply ownp_bind_any; [apply ownp_lift_any|]. intros e' O15 I15. destruct e'; apply ownp_ret_any.
Qed.
Lemma client_calm (base : forall A, M A -> Prop) : (forall A m, base A m -> calm m) -> forall A m, client W ieq base A m -> calm m.
Proof.
  intros B A m. induction 1.
  - apply calm_done.
  - apply calm_bind; auto.
  - apply calm_load.
  - eauto.
  - apply calm_WalkE; auto.
  - apply calm_diffE. split; [|split; [|split]]; auto.
  - apply calm_MapE; auto.
Qed.
Lemma table_calls_calm A m : table_calls W ieq A m -> calm m.
Proof.
  intros [] O; auto using ownp_Insert, ownp_Update, ownp_InsertOrUpdate, ownp_GetOrInsert, ownp_del, ownp_Match, ownp_Equal.
  apply ownp_aggregate.
Qed.

(* ---- each ---- *)
Lemma calm_each {A S} (f : A -> S -> M (S * bool)) l : (forall x st, calm (f x st)) -> forall st, calm (each f l st).
Proof.
  intros C. induction l as [|x l IH]; intros st; cbn [each]; [apply calm_done|].
  apply calm_bind; auto. intros [st' go]. apply calm_if; auto. apply calm_done.
Qed.
Lemma run_bind_eq {A B} (m m' : M A) (k k' : A -> M B) h :
  run m h = run m' h -> (forall a, snd (run m h) = Ok a -> run (k a) (fst (run m h)) = run (k' a) (fst (run m h))) ->
  run (pbind m k) h = run (pbind m' k') h.
Proof. intros E K. rewrite !run_pbind, <- E. destruct (snd (run m h)) as [a| |]; auto. Qed.
Lemma each_app {A S} (f : A -> S -> M (S * bool)) xs ys : forall st h,
  run (each f (xs ++ ys) st) h = run ('(st', go) <- each f xs st ;; if go : bool then each f ys st' else ret (st', false)) h.
Proof.
  induction xs as [|x xs IH]; intros st h; cbn [each app]; [reflexivity|].
  rewrite !run_pbind. destruct (run (f x st) h) as [h1 [[st1 go]| |]] eqn:E; cbn [fst snd]; auto.
  destruct go; [|reflexivity].
  rewrite IH, run_pbind. reflexivity.
Qed.
Lemma each_noop {A S} (f : A -> S -> M (S * bool)) l : (forall x, In x l -> forall st, f x st = ret (st, true)) ->
  forall st h, run (each f l st) h = (h, Ok (st, true)).
Proof.
  induction l as [|x l IH]; intros H st h; cbn [each]; [reflexivity|]. rewrite H by (left; reflexivity). cbn. apply IH. intros; apply H; right; auto.
Qed.

(* ---- diff ---- *)
Section D.
Context {St : Type}.
Variable H : @eHandler T St.
Hypothesis C : calmH H.
Variable eq : comparator T.
Variable f : option T -> option T -> bool.
Hypothesis skip_ok : eSame H = None -> forall d, f d d = true.
Definition reactE (e : event T) (st : St) : M (St * bool) :=
  match e with
  | ERemoved p d => eRemoved H p d st
  | EAdded p d => eAdded H p d st
  | EModified p _ d d' => eModified H p d d' st
  | ESame p _ d _ => match eSame H with Some g => g p d st | None => ret (st, true) end
  end.
Lemma calm_react e st : calm (reactE e st).
Proof. destruct C as (H1 & H2 & H3 & H4). destruct e; cbn [reactE]; auto. destruct (eSame H) eqn:E; [eauto|apply calm_done]. Qed.

Lemma run_one (e : event T) st h : run (each reactE [e] st) h = run (reactE e st) h.
Proof.
  cbn [each]. rewrite run_pbind. destruct (run (reactE e st) h) as [h1 [[st1 [|]]| |]]; reflexivity.
Qed.
Lemma ei_rem p d s hh a c0 c1 l r st h :
  run (ei_Removed H (mkH p d s hh a c0 c1) st) h = run (each reactE (ev_rem (Node p d s hh a l r)) st) h.
Proof. unfold ei_Removed, ev_rem. cbn [hactive hPrefix hData]. destruct a; [rewrite run_one|]; reflexivity. Qed.
Lemma ei_add p d s hh a c0 c1 l r st h :
  run (ei_Added H (mkH p d s hh a c0 c1) st) h = run (each reactE (ev_add (Node p d s hh a l r)) st) h.
Proof. unfold ei_Added, ev_add. cbn [hactive hPrefix hData]. destruct a; [rewrite run_one|]; reflexivity. Qed.
Lemma ei_mod p d s hh a c0 c1 l r p' d' s' hh' a' c0' c1' l' r' st h : okpair f eq (Node p d s hh a l r) (Node p' d' s' hh' a' l' r') ->
  run (ei_Modified H eq (mkH p d s hh a c0 c1) (mkH p' d' s' hh' a' c0' c1') st) h
  = run (each reactE (ev_same f (Node p d s hh a l r) (Node p' d' s' hh' a' l' r')) st) h.
Proof.
  intros OK. unfold ei_Modified, ev_same. cbn [hactive hData hPrefix]. destruct a, a'; cbn [andb ev_rem ev_add app].
  - specialize (OK (p, d) (p', d') (or_introl eq_refl) (or_introl eq_refl)). cbn in OK. unfold lift. rewrite OK. cbn [pbind].
    destruct (f d d'); cbn [negb]; rewrite run_one; reflexivity.
  - rewrite run_one. reflexivity.
  - rewrite run_one. reflexivity.
  - reflexivity.
Qed.

Lemma run_children i (n : hnode T) h : nth_error h i = Some n -> run (h_children (Some i)) h = (h, Ok (hc0 n, hc1 n)).
Proof. intros E. unfold h_children. cbn. rewrite E. reflexivity. Qed.

Lemma diffE_run : forall fuel l r pl pr st h, denotes h pl l -> denotes h pr r -> okpair f eq l r -> dm l r < N.of_nat fuel ->
  run (h_diffE W fuel pl pr H eq st) h = run (each reactE (devs W f fuel l r) st) h.
Proof.
  induction fuel as [|fuel IH]; intros l r pl pr st h Rl Rr OK Hm; [lia|].
  cbn [h_diffE]. destruct (ptr_eqb pl pr && _) eqn:Ep.
  { apply andb_prop in Ep. destruct Ep as [Ep En]. assert (l = r) as <- by (eapply repr_ptr_eq; eauto).
    assert (eSame H = None) as Es by (destruct (eSame H); [discriminate|reflexivity]).
    rewrite each_noop; [reflexivity|]. intros e He st'.
    pose proof (devs_refl W f (Datatypes.S fuel) l (skip_ok Es)) as F. rewrite Forall_forall in F.
    specialize (F _ He). destruct e; try contradiction. cbn [reactE]. rewrite Es. reflexivity. }
  clear Ep.
  assert (K : forall (kids : M ((ptr * ptr) * (ptr * ptr))) nl0 nl1 nr0 nr1 q0 q1 s0 s1 hd head st,
     (forall h', grows h h' -> run kids h' = (h', Ok ((q0, q1), (s0, s1)))) ->
     denotes h q0 nl0 -> denotes h q1 nl1 -> denotes h s0 nr0 -> denotes h s1 nr1 ->
     incl (entries nl0) (entries l) -> incl (entries nl1) (entries l) ->
     incl (entries nr0) (entries r) -> incl (entries nr1) (entries r) ->
     dm nl0 nr0 < N.of_nat fuel -> dm nl1 nr1 < N.of_nat fuel ->
     run head h = run (each reactE hd st) h ->
     run ('(st1, go) <- head ;;
      if negb go then ret (st1, false)
      else '(nl, nr) <- kids ;;
           '(st2, go2) <- h_diffE W fuel (fst nl) (fst nr) H eq st1 ;;
           if negb go2 then ret (st2, false)
           else '(st3, go3) <- h_diffE W fuel (snd nl) (snd nr) H eq st2 ;;
                if negb go3 then ret (st3, false) else ret (st3, true)) h
     = run (each reactE (hd ++ (devs W f fuel nl0 nr0 ++ devs W f fuel nl1 nr1)) st) h).
  { intros kids nl0 nl1 nr0 nr1 q0 q1 s0 s1 hd head st0 HK A0 A1 B0 B1 I1 I2 I3 I4 M1 M2 Eh.
    rewrite each_app. apply run_bind_eq; [exact Eh|]. intros [st1 go] E1. destruct go; [|reflexivity]. cbn [negb].
    assert (G1 : grows h (fst (run head h))). { rewrite Eh. apply calm_grows. apply calm_each. apply calm_react. }
    set (h1 := fst (run head h)) in *. rewrite run_pbind, HK by exact G1. cbn [fst snd].
    rewrite each_app. apply run_bind_eq.
    { apply IH; eauto using grows_denotes. eapply okpair_sub; eassumption. }
    intros [st2 go2] E2. destruct go2; [|reflexivity]. cbn [negb].
    assert (G2 : grows h1 (fst (run (h_diffE W fuel q0 s0 H eq st1) h1))). { apply calm_grows. apply calm_diffE. exact C. }
    set (h2 := fst (run (h_diffE W fuel q0 s0 H eq st1) h1)) in *.
    assert (E3 : run (h_diffE W fuel q1 s1 H eq st2) h2 = run (each reactE (devs W f fuel nl1 nr1) st2) h2).
    { apply IH; eauto using grows_denotes, grows_trans. eapply okpair_sub; eassumption. }
    rewrite run_pbind, E3. destruct (run (each reactE (devs W f fuel nl1 nr1) st2) h2) as [h3 [[st3 [|]]| |]]; reflexivity. }
  assert (NIL : denotes h None (@Nil T)) by reflexivity.
  assert (KE : forall i n h', grows h h' -> nth_error h i = Some n -> nth_error h' i = Some n).
  { intros i n h' [_ G] E. rewrite G; auto. apply nth_error_Some. congruence. }
  cbv zeta.
  destruct l as [|lp dl sl hl al ll lr]; destruct r as [|rp dr sr hr ar rl rr].
  - cbn [repr] in Rl, Rr. unfold denotes in Rl, Rr. cbn [repr] in Rl, Rr. subst pl pr. reflexivity.
  - unfold denotes in Rl, Rr. cbn [repr] in Rl, Rr. destruct Rr as (i & c0 & c1 & -> & Hi & Ei & R0 & R1). subst pl.
    rewrite (run_load _ _ _ _ Ei). cbn [devs].
    apply (K (b <- h_children (Some i) ;; ret (at_child false None, b)) Nil Nil rl rr None None c0 c1);
      auto using incl_child0, incl_child1, incl_setl, incl_setr, incl_nil.
    { intros h' G. rewrite run_pbind, (run_children _ _ _ (KE _ _ _ G Ei)). reflexivity. }
    1-2: intros x Hx; cbn [entries]; rewrite !in_app_iff; auto.
    1-2: unfold dm in *; cbn [WF.depth] in *; lia.
    apply ei_add.
  - unfold denotes in Rl, Rr. cbn [repr] in Rl, Rr. destruct Rl as (i & c0 & c1 & -> & Hi & Ei & R0 & R1). subst pr.
    rewrite (run_load _ _ _ _ Ei). cbn [devs].
    apply (K (a <- h_children (Some i) ;; ret (a, at_child false None)) ll lr Nil Nil c0 c1 None None);
      auto using incl_child0, incl_child1, incl_setl, incl_setr, incl_nil.
    { intros h' G. rewrite run_pbind, (run_children _ _ _ (KE _ _ _ G Ei)). reflexivity. }
    1-2: intros x Hx; cbn [entries]; rewrite !in_app_iff; auto.
    1-2: unfold dm in *; cbn [WF.depth] in *; destruct ll, lr; cbn [WF.depth] in *; lia.
    apply ei_rem.
  - pose proof Rl as Rl'. pose proof Rr as Rr'. unfold denotes in Rl, Rr. cbn [repr] in Rl, Rr.
    destruct Rl as (i & c0 & c1 & -> & Hi & Ei & R0 & R1). destruct Rr as (j & e0 & e1 & -> & Hj & Ej & S0 & S1).
    rewrite (run_load _ _ _ _ Ei), (run_load _ _ _ _ Ej). cbn [devs hPrefix].
    destruct (compare W lp rp) as [[[result rev] common] child].
    destruct result.
    + eapply (K (a <- h_children (Some i) ;; b <- h_children (Some j) ;; ret (a, b)) ll lr rl rr c0 c1 e0 e1);
        auto.
      { intros h' G. rewrite run_pbind, (run_children _ _ _ (KE _ _ _ G Ei)). cbn [fst snd].
        rewrite run_pbind, (run_children _ _ _ (KE _ _ _ G Ej)). reflexivity. }
      1-4: intros x Hx; cbn [entries]; rewrite !in_app_iff; auto.
      1-2: unfold dm in *; cbn [WF.depth] in *.
      { destruct ll, rl; lia. } { destruct lr, rr; lia. }
      apply ei_mod. exact OK.
    + destruct child; (eapply (K (a <- h_children (Some i) ;; ret (a, at_child _ (Some j))));
        [intros h' G; rewrite run_pbind, (run_children _ _ _ (KE _ _ _ G Ei)); reflexivity|..|apply ei_rem]);
        eauto using incl_child0, incl_child1, incl_nil, List.incl_refl;
        unfold dm in *; cbn [setl setr child0 child1 WF.depth] in *; destruct ll, lr; cbn [WF.depth] in *; lia.
    + destruct child; (eapply (K (b <- h_children (Some j) ;; ret (at_child _ (Some i), b)));
        [intros h' G; rewrite run_pbind, (run_children _ _ _ (KE _ _ _ G Ej)); reflexivity|..|apply ei_add]);
        eauto using incl_child0, incl_child1, incl_nil, List.incl_refl;
        unfold dm in *; cbn [setl setr child0 child1 WF.depth] in *; destruct rl, rr; cbn [WF.depth] in *; lia.
    + destruct child; (eapply (K (ret (at_child _ (Some i), at_child _ (Some j)))) with (hd := []); [intros h' G; reflexivity|..|reflexivity]);
        eauto using incl_nil, List.incl_refl; unfold dm in *; cbn [WF.depth] in *; lia.
Qed.
End D.
End P.
