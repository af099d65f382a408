(* ConcSetSim.v - the calls on sets as functions on values meet the specification
   of ConcSetSpec.v. *)
From Verif Require Export ConcSetSpec ConcSim ConcSetProof PropsSet.
From Coq Require Import Arith Sorted Permutation ZifyBool ZifyNat ZifyN.

Section Sim.
Variable W : N.
Hypothesis IPW : ip_width W.
Notation mem := (mem W).
Notation set_value := (set_value W).
Notation nopq := (fun _ _ : snode => false).
Let HW : 0 < W /\ W < 2 ^ 15 := ip_HW W IPW.

Definition SR (s : snode) (v : mset) : Prop :=
  set_value s /\ (forall a, mem s a <-> ss_mem v a) /\ (ss_plain v = true -> Forall (canonical W) (stored s)).
Lemma nopp : pointer_eq nopq. Proof. discriminate. Qed.

Lemma centred_dec r : centred W r \/ ~ centred W r.
Proof.
  set (f := fun n : nat => let k := N.of_nat n in
    let x := rfirst r mod 2 ^ k in
    (0 <? x) && (x <? 2 ^ (k - 1)) && (0 <? k) && (k <=? W) && (rlast r + x + 1 =? (rfirst r / 2 ^ k + 1) * 2 ^ k)).
  destruct (existsb f (seq 0 (Datatypes.S (N.to_nat W)))) eqn:E.
  - left. apply existsb_exists in E. destruct E as (n & _ & E). unfold f in E. rewrite !andb_true_iff, !N.ltb_lt, N.leb_le, N.eqb_eq in E.
    destruct E as ((((A & B) & C) & D) & F). exists (N.of_nat n), (rfirst r / 2 ^ N.of_nat n), (rfirst r mod 2 ^ N.of_nat n).
    split; auto. split; auto. split; auto. split; auto. split; auto. pose proof (pow2_pos (N.of_nat n)). pose proof (N.div_mod (rfirst r) (2 ^ N.of_nat n)). lia.
  - right. intros (k & b & x & X1 & X2 & K1 & K2 & E1 & E2). assert (N : f (N.to_nat k) = true).
    { unfold f. rewrite N2Nat.id. assert (P : 2 ^ k = 2 * 2 ^ (k - 1)) by (rewrite <- N.pow_succ_r'; f_equal; lia).
      pose proof (pow2_pos k) as Pk. assert (Ex : rfirst r mod 2 ^ k = x) by (rewrite E1, N.add_comm, N.mod_add by lia; apply N.mod_small; lia).
      assert (Eb : rfirst r / 2 ^ k = b) by (rewrite E1, N.add_comm, N.div_add by lia; rewrite N.div_small by lia; lia).
      rewrite Ex, Eb. rewrite !andb_true_iff, !N.ltb_lt, N.leb_le, N.eqb_eq. auto 10. }
    assert (Y : existsb f (seq 0 (Datatypes.S (N.to_nat W))) = true); [|congruence].
    apply existsb_exists. exists (N.to_nat k). split; auto. apply in_seq. lia.
Qed.
Lemma SR_nil : SR Nil ss_zero.
Proof. split; [constructor|]. split; [|constructor]. intros a. cbn. unfold SetSpec.mem. cbn. split; [intros (_ & p & [] & _)|intros []]. Qed.
Lemma arg_sim x a ts vs : s_arg_ok W x a -> length a = length ts -> Forall2 SR ts vs ->
  exists i t w, s_setI x ts = Some i /\ valid_arg W i /\ setI W nopq i = Ok t /\ ss_arg W x vs w /\ SR t w /\ (x <> ANil -> i <> None).
Proof.
  intros Hx La F.
  assert (G : forall i w, s_setI x ts = Some i -> valid_arg W i -> exact_arg W i -> (x <> ANil -> i <> None) -> ss_arg W x vs w -> (forall a, arg_mem W i a <-> ss_mem w a) ->
    (ss_plain w = true -> canonical_arg W i) ->
    exists i t w, s_setI x ts = Some i /\ valid_arg W i /\ setI W nopq i = Ok t /\ ss_arg W x vs w /\ SR t w /\ (x <> ANil -> i <> None)).
  { intros i w E V X Nn A M C. destruct (C23_argument W IPW nopq i nopp V) as (t & Et & SV & Mt). exists i, t, w.
    split; auto. split; auto. split; auto. split; auto. split; auto. split; auto. split; [intros b; rewrite (Mt X b); auto|].
    intros P. eapply (canonical_argument W IPW nopq i t nopp V); eauto. }
  destruct x as [|b|p|r|]; cbn [s_arg_ok s_setI ss_arg] in *.
  - apply (G None ss_zero eq_refl); [constructor|exact I|tauto|reflexivity| |]; cbn; [tauto|auto].
  - destruct Hx as [Hb _]. eapply (G _ _ eq_refl); [constructor; auto|exact I|discriminate|reflexivity| |]; cbn; [tauto|auto].
  - destruct Hx as [Hp _]. eapply (G _ _ eq_refl); [constructor; auto|exact I|discriminate|reflexivity| |]; cbn; [tauto|]. intros E. apply N.eqb_eq in E. exact E.
  - destruct Hx as [Hr _]. assert (V : valid_arg W (Some (RangeSet r))) by (constructor; auto).
    destruct (arg_ok W HW nopq _ nopp V) as (t & Et & St & SV & Xt).
    assert (D : ~ centred W r \/ centred W r).
    { destruct (centred_dec r); auto. }
    destruct D as [D|D].
    + eapply (G _ _ eq_refl); [exact V|exact D|discriminate|left; split; [exact D|reflexivity]| |]; cbn; [tauto|auto].
    + pose proof D as D'. destruct D' as (k & b & y & Y1 & Y2 & K1 & K2 & E1 & E2).
      destruct (C29_centred_becomes_block W IPW nopq r k b y nopp Hr Y1 Y2 K1 K2 E1 E2) as (t' & Et' & M).
      cbn [setI] in Et. rewrite Et in Et'. injection Et' as <-.
      eexists _, t, _. split; [reflexivity|]. split; [exact V|]. split; [exact Et|]. split; [right; exists k, b, y; auto 10|]. split; [|discriminate].
      split; [exact SV|]. split; [exact M|discriminate].
  - destruct Hx as [s ->]. cbn in La. destruct ts as [|t [|? ?]]; try discriminate. inversion F as [|? w ? ? R F']; subst. inversion F'; subst.
    destruct R as (SV & M & C). apply (G _ w eq_refl); [constructor; auto|exact I|discriminate|reflexivity| |]; cbn; auto.
Qed.

Lemma s_write : forall c o a v v' vs vs', s_call_ok W (KWrite (Some c) o a) -> length a = length vs -> SR v v' -> Forall2 SR vs vs' ->
  exists x x' out, s_wfun W o v vs = Ok (x, out) /\ s_wspec W o v' vs' x' out /\
    match x, x' with None, None => True | Some w, Some w' => SR w w' | _, _ => False end.
Proof.
  intros c o a s v ts vs Hk La (SV & M & C) F. destruct o as [x|x]; cbn [s_call_ok s_wfun s_wspec] in *;
    destruct (arg_sim x a ts vs Hk La F) as (i & t & w & E1 & V & E2 & A & (SVt & Mt & Ct) & _); unfold with_arg; rewrite E1.
  - destruct (C23_union W IPW nopq s i nopp SV V) as (t' & u & Et & Eu & SVu & Mu & _). rewrite E2 in Et. injection Et as <-.
    destruct (C23_insert_remove W nopq s i) as (-> & _). rewrite Eu. cbn [bind of_some].
    eexists _, _, _. split; [reflexivity|]. split; [split; [reflexivity|exists w; split; [exact A|reflexivity]]|]. cbn beta iota.
    split; [exact SVu|]. split; [intros b; rewrite (Mu b), (M b), (Mt b); reflexivity|]. cbn [ss_union ss_plain]. intros P. apply andb_true_iff in P. destruct P.
    unfold set_Union in Eu. rewrite E2 in Eu. cbn [bind] in Eu. eapply (clean_Union W HW nopq nopp [] s t u); auto; apply (vswf W IPW); auto.
  - destruct (C23_difference W IPW nopq s i nopp SV V) as (t' & u & Et & Eu & SVu & Mu & _). rewrite E2 in Et. injection Et as <-.
    destruct (C23_insert_remove W nopq s i) as (_ & -> & _). rewrite Eu. cbn [bind of_some].
    eexists _, _, _. split; [reflexivity|]. split; [split; [reflexivity|exists w; split; [exact A|reflexivity]]|]. cbn beta iota.
    split; [exact SVu|]. split; [intros b; rewrite (Mu b), (M b), (Mt b); reflexivity|]. cbn [ss_diff ss_plain]. intros P.
    unfold set_Difference in Eu. rewrite E2 in Eu. cbn [bind] in Eu. eapply (clean_Difference W HW nopq nopp [] s t u); auto; apply (vswf W IPW); auto.
Qed.
Lemma s_build : forall b a vs vs' R, s_call_ok W (KBuild b a) -> length a = length vs -> Forall2 SR vs vs' -> s_bfun W b vs R ->
  (exists v v', R = Ok v /\ s_bspec W b vs' (Some v') /\ SR v v') \/ (R = Panic /\ s_bspec W b vs' None).
Proof.
  intros b a ts vs R Hk La F B. left. destruct b as [x|x|x|x]; cbn [s_call_ok s_bfun s_bspec] in *.
  - destruct (arg_sim x a ts vs Hk La F) as (i & t & w & E1 & V & E2 & A & SRt & _). unfold with_arg in B. rewrite E1, E2 in B. subst R. eauto 10.
  - destruct Hk as (n & a' & -> & Hk). destruct ts as [|s ts]; [discriminate|]. inversion F as [|? v ? vs' (SV & M & C) F']; subst.
    destruct (arg_sim x a' ts vs' Hk ltac:(cbn in La; lia) F') as (i & t & w & E1 & V & E2 & A & (SVt & Mt & Ct) & _). unfold with_arg. rewrite E1.
    destruct (C23_union W IPW nopq s i nopp SV V) as (t' & u & Et & Eu & SVu & Mu & _). rewrite E2 in Et. injection Et as <-.
    exists u, (ss_union v w). split; [exact Eu|]. split; [eauto|]. split; [exact SVu|]. split; [intros b; rewrite (Mu b), (M b), (Mt b); reflexivity|].
    cbn [ss_union ss_plain]. intros P. apply andb_true_iff in P. destruct P.
    unfold set_Union in Eu. rewrite E2 in Eu. cbn [bind] in Eu. eapply (clean_Union W HW nopq nopp [] s t u); auto; apply (vswf W IPW); auto.
  - destruct Hk as (n & a' & -> & Hk). destruct ts as [|s ts]; [discriminate|]. inversion F as [|? v ? vs' (SV & M & C) F']; subst.
    destruct (arg_sim x a' ts vs' Hk ltac:(cbn in La; lia) F') as (i & t & w & E1 & V & E2 & A & (SVt & Mt & Ct) & _). unfold with_arg. rewrite E1.
    destruct (C23_intersection W IPW nopq s i nopp SV V) as (t' & u & Et & Eu & SVu & Mu & _). rewrite E2 in Et. injection Et as <-.
    exists u, (ss_inter v w). split; [exact Eu|]. split; [eauto|]. split; [exact SVu|]. split; [intros b; rewrite (Mu b), (M b), (Mt b); reflexivity|].
    cbn [ss_inter ss_plain]. intros P. apply andb_true_iff in P. destruct P.
    unfold set_Intersection in Eu. rewrite E2 in Eu. cbn [bind] in Eu. eapply (clean_Intersect W HW nopq nopp s t u); auto; apply (vswf W IPW); auto.
  - destruct Hk as (n & a' & -> & Hk). destruct ts as [|s ts]; [discriminate|]. inversion F as [|? v ? vs' (SV & M & C) F']; subst.
    destruct (arg_sim x a' ts vs' Hk ltac:(cbn in La; lia) F') as (i & t & w & E1 & V & E2 & A & (SVt & Mt & Ct) & _). unfold with_arg. rewrite E1.
    destruct (C23_difference W IPW nopq s i nopp SV V) as (t' & u & Et & Eu & SVu & Mu & _). rewrite E2 in Et. injection Et as <-.
    exists u, (ss_diff v w). split; [exact Eu|]. split; [eauto|]. split; [exact SVu|]. split; [intros b; rewrite (Mu b), (M b), (Mt b); reflexivity|].
    cbn [ss_diff ss_plain]. intros P.
    unfold set_Difference in Eu. rewrite E2 in Eu. cbn [bind] in Eu. eapply (clean_Difference W HW nopq nopp [] s t u); auto; apply (vswf W IPW); auto.
Qed.

Lemma equal_sim s t v w : SR s v -> SR t w -> exists b, set_Equal nopq s t = Ok b /\ (b = true -> forall a, ss_mem v a <-> ss_mem w a) /\
  (ss_plain v = true -> ss_plain w = true -> (forall a, ss_mem v a <-> ss_mem w a) -> b = true).
Proof.
  intros (SV & M & C) (SVt & Mt & Ct). destruct (C25_equal_stored W IPW nopq s t nopp SV SVt) as (b & E & _). exists b. split; [exact E|]. split.
  - intros -> a. rewrite <- M, <- Mt. eapply (C25_equal_sound W IPW nopq s t); eauto using nopp.
  - intros P Q X. destruct (C25_equal_partial W IPW nopq s t nopp SV SVt (C P) (Ct Q)) as (b' & E' & X'). rewrite E in E'. injection E' as <-.
    apply X'. intros a. rewrite M, Mt. apply X.
Qed.
Lemma contains_sim x a ts vs s v : SR s v -> s_arg_ok W x a -> length a = length ts -> Forall2 SR ts vs ->
  exists w b, ss_arg W x vs w /\ with_arg x ts (fun i => bind (set__Contains W nopq (Some s) i) (fun b => Ok (SBool b))) = Ok (SBool b) /\
    (b = true <-> forall a, ss_mem w a -> ss_mem v a).
Proof.
  intros (SV & M & C) Hk La F. destruct (arg_sim x a ts vs Hk La F) as (i & t & w & E1 & V & E2 & A & (SVt & Mt & Ct) & _). unfold with_arg. rewrite E1.
  destruct (C28_contains W IPW nopq s i nopp SV V) as (t' & b & Et & _ & Eb & Hb & _). rewrite E2 in Et. injection Et as <-. rewrite Eb. cbn [bind].
  exists w, b. split; auto. split; auto. rewrite Hb. split; intros H y Hy; apply M, H, Mt; auto.
Qed.
Lemma s_read : forall x r a v v' vs vs', s_call_ok W (KRead x r a) -> length a = length vs -> (v = None -> x = Cell None) -> Ro SR v v' -> Forall2 SR vs vs' ->
  s_rspec W r v' vs' (reply_of (s_rfun W r v vs)).
Proof.
  intros x r a s v ts vs Hk La Hn HR F.
  (* the uninitialised handle *)
  destruct s as [s|]; destruct v as [v|]; try contradiction; cbn [Ro] in HR.
  2:{ specialize (Hn eq_refl). subst x. pose proof SR_nil as Z.
    destruct r as [| |y| |go|go|y n]; cbn [s_call_ok s_rfun s_rspec] in *; try (destruct (proj1 Hk) as [n0 X]; discriminate X).
    - exists []. split; [constructor|]. split; [intros b; split; [intros []|intros []]|]. reflexivity.
    - exists true. split; [|cbn; split; auto]. destruct (C22_uninitialised_set W IPW nopq None nopp (va_nil W)) as (_ & -> & _). reflexivity.
    - destruct (contains_sim y a ts vs Nil ss_zero Z Hk La F) as (w & b & A & E & B). exists w, b. split; auto. split; auto.
      destruct (arg_sim y a ts vs Hk La F) as (i & t & w' & E1 & V & _). unfold with_arg in *. rewrite E1 in *.
      destruct (C22_uninitialised_set W IPW nopq i nopp V) as (_ & _ & _ & -> & _). exact (f_equal reply_of E).
    - destruct Hk as [n ->]. destruct ts as [|t [|? ?]]; try discriminate. inversion F as [|? w ? ? R F']; subst. inversion F'; subst.
      destruct (C22_uninitialised_set W IPW nopq None nopp (va_nil W)) as (_ & _ & _ & _ & Q & _). rewrite Q by (intros ? [= <-]; apply R).
      destruct (equal_sim Nil t ss_zero w Z R) as (b & E & B). exists w, b. split; auto. cbn [set__Equal]. split; [|exact B].
      exact (f_equal (fun r => reply_of (bind r (fun b => Ok (SBool b)))) E). }
  pose proof HR as (SV & M & C).
  destruct r as [| |y| |go|go|y n]; cbn [s_call_ok s_rfun s_rspec] in *.
  - destruct (C27_cardinality W IPW s SV) as ((l & Sl & Il & El) & _ & _). exists l. split.
    + clear -Sl. induction Sl as [|x l Sl IH Fx]; constructor; auto. intros I. rewrite Forall_forall in Fx. specialize (Fx x I). lia.
    + split; [intros b; rewrite (Il b); apply M|]. destruct (C27_set_ W s) as [-> _]. rewrite El. reflexivity.
  - destruct (C27_cardinality W IPW s SV) as (_ & _ & E). destruct (C27_set_ W s) as [_ ->]. eexists. split; [reflexivity|]. rewrite E. split; intros H b; rewrite ?M; [rewrite <- M|]; apply H.
  - destruct (contains_sim y a ts vs s v HR Hk La F) as (w & b & A & E & B). exists w, b. split; auto. rewrite E. auto.
  - destruct Hk as [n ->]. destruct ts as [|t [|? ?]]; try discriminate. inversion F as [|? w ? ? R F']; subst. inversion F'; subst.
    destruct (equal_sim s t v w HR R) as (b & E & B). exists w, b. split; auto. split; [|exact B].
    change (set__Equal W nopq (Some s) (Some t)) with (set_Equal nopq s t). rewrite E. reflexivity.
  - destruct (C26_minimal W IPW s SV) as (X1 & X2 & X3 & _ & X5). exists (stored s). split; auto.
    assert (EX : forall l, exactly W l (ss_mem v) <-> exactly W l (mem s)).
    { intros l. unfold exactly. split; intros H b Hb; rewrite (H b Hb); [symmetry|]; apply M. }
    split; [apply EX; auto|]. split; auto. split; [intros l' Fl Xl; apply X5; auto; apply EX; auto|]. split; auto.
    rewrite (C26_walk_prefixes W IPW nopq s (seen go) [] nopp SV). cbn [bind reply_of].
    change (fun (p : prefix) (st : list prefix) => (st ++ [p], go (st ++ [p]))) with (seen go).
    destruct (until_false (seen go) (stored s) []); reflexivity.
  - destruct (C30_walk_ranges W IPW nopq s nopp SV) as (rs & X1 & X2 & X3 & X4). exists rs. split; auto. split; auto. split; [intros b; rewrite (X3 b); apply M|].
    rewrite (X4 _ (seen go) []). cbn [bind reply_of].
    change (fun (p : range) (st : list range) => (st ++ [p], go (st ++ [p]))) with (seen go).
    destruct (until_false (seen go) rs []); reflexivity.
  - destruct Hk as [_ Hk]. destruct (arg_sim y a ts vs Hk La F) as (i & t & w & E1 & V & E2 & A & (SVt & Mt & Ct) & NN). unfold with_arg. rewrite E1.
    assert (G : y <> ANil -> exists w, ss_arg W y vs w /\ let free := fun a => ss_mem v a /\ ~ ss_mem w a in
      exists res, reply_of (bind (set_FindAvailablePrefix W nopq s i n) (fun p => Ok (SFound p))) = ROut (SFound res) /\
      (n <= W ->
       match res with
       | Some q => plen q = n /\ wf_prefix W q /\ canonical W q /\ prefix_in W free q /\
           exists p, wf_prefix W p /\ maximal W free p /\ plen p <= n /\ paddr q = net W p /\
             forall p', wf_prefix W p' -> maximal W free p' -> plen p' <= n ->
               plen p' < plen p \/ plen p' = plen p /\ net W p <= net W p'
       | None => ~ exists q, wf_prefix W q /\ plen q = n /\ prefix_in W free q
       end)).
    { intros Hy. exists w. split; [exact A|]. cbv zeta. specialize (NN Hy). destruct i as [i|]; [|congruence].
      assert (V' : valid_arg W (Some (TheSet t))) by (constructor; auto).
      assert (EQ : set_FindAvailablePrefix W nopq s (Some i) n = set_FindAvailablePrefix W nopq s (Some (TheSet t)) n).
      { unfold set_FindAvailablePrefix. cbn [setI] in E2. rewrite E2. reflexivity. }
      rewrite EQ. destruct (find_of W IPW nopq s (TheSet t) n nopp SV V') as (t' & d & _ & _ & _ & _ & _ & EF).
      destruct (set_FindAvailablePrefix W nopq s (Some (TheSet t)) n) as [res| |] eqn:ER; try discriminate. cbn [bind reply_of].
      exists res. split; [reflexivity|]. intros Ln.
      destruct (C33_find_sound_complete W IPW nopq s (TheSet t) n nopp SV V' I Ln) as (x' & Ex & S1 & S2). rewrite ER in Ex. injection Ex as <-.
      assert (FR : forall b, (mem s b /\ ~ arg_mem W (Some (TheSet t)) b) <-> (ss_mem v b /\ ~ ss_mem w b)).
      { intros b. cbn [arg_mem]. rewrite (M b), (Mt b). reflexivity. }
      destruct res as [q|].
      - destruct (S1 q eq_refl) as (Q1 & Q2 & Q3 & Q4). split; auto. split; auto. split; auto. split; [intros b Hb; apply FR; auto|].
        destruct (C34_best_fit W IPW nopq s (TheSet t) n q nopp SV V' I Ln ER) as (p & P1 & P2 & P3 & P4 & P5).
        exists p. split; auto. split; [eapply (maximal_ext W); [|exact P2]; intros b; symmetry; apply FR|]. split; auto. split; auto.
        intros p' H1 H2 H3. apply P5; auto. eapply (maximal_ext W); [|exact H2]. exact FR.
      - intros (q & Q1 & Q2 & Q3). apply (proj1 S2 eq_refl). exists q. split; auto. split; auto. intros b Hb. apply FR. auto. }
    destruct y as [|b|p|r0|]; try (apply G; discriminate). cbn in E1. injection E1 as <-. reflexivity.
Qed.

Lemma set_meets : meets (s_wfun W) (s_rfun W) (s_bfun W) Nil s_new s_thawed (s_wspec W) (s_rspec W) (s_bspec W) ss_zero ss_new ss_thaw
  (s_call_ok W) SR SR.
Proof.
  constructor.
  - auto.
  - apply SR_nil.
  - intros [] _. exists ss_zero. split; [reflexivity|apply SR_nil].
  - intros s v n _ H. exists v. split; [reflexivity|exact H].
  - exact s_read.
  - exact s_build.
  - exact s_write.
Qed.
End Sim.
