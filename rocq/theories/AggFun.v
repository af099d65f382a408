(* AggFun.v - proof that aggregate computes AggSpec.aggregated. *)
From Verif Require Export AggProof AggSpec.
From Coq Require Import Arith ZifyBool ZifyNat ZifyN.

Section AggMap.
Context {A B : Type}.
Variable h : A -> B.
Variable g : B -> B -> bool.
Let f (x y : A) := g (h x) (h y).
Lemma aggregated_map n : forall M u q,
  option_map h (aggregated f n M u q) = aggregated g n (fun x => option_map h (M x)) (option_map h u) q.
Proof.
  induction n as [|n IH]; intros M u q; cbn [aggregated].
  - destruct (M []) as [v|]; destruct u as [x|]; destruct q; cbn; auto. unfold f. destruct (g (h x) (h v)); auto.
  - set (own := match M [] with Some v => match u with Some x => if f x v then None else Some v | None => Some v end | None => None end).
    set (own' := match option_map h (M []) with Some v => match option_map h u with Some x => if g x v then None else Some v | None => Some v end | None => None end).
    assert (Eo : own' = option_map h own).
    { unfold own, own'. destruct (M []) as [v|]; destruct u as [x|]; cbn; auto. unfold f. destruct (g (h x) (h v)); auto. }
    assert (Ei : match own' with Some v => Some v | None => option_map h u end = option_map h (match own with Some v => Some v | None => u end)).
    { rewrite Eo. destruct own; auto. }
    rewrite Ei, <- !IH.
    set (b0 := aggregated f n _ _ _). set (b1 := aggregated f n _ _ _).
    assert (Em : match option_map h b0 with Some x => match option_map h b1 with Some y => if g x y then Some x else None | None => None end | None => None end
      = option_map h (match b0 with Some x => match b1 with Some y => if f x y then Some x else None | None => None end | None => None end)).
    { destruct b0 as [x|], b1 as [y|]; cbn; auto. unfold f. destruct (g (h x) (h y)); auto. }
    rewrite Em. destruct (match b0 with Some _ => _ | None => None end) as [x|]; cbn [option_map].
    + destruct q; auto.
    + destruct q as [|c q]; auto.
Qed.
End AggMap.

Section AggExt.
Context {V : Type}.
Variable g : V -> V -> bool.
Lemma aggregated_ext n : forall M M' u q, (forall x, (length x <= n)%nat -> M x = M' x) -> aggregated g n M u q = aggregated g n M' u q.
Proof.
  induction n as [|n IH]; intros M M' u q E; cbn [aggregated].
  - rewrite E by auto with arith. reflexivity.
  - rewrite E by auto with arith.
    assert (X : forall c i q, aggregated g n (fun x => M (c :: x)) i q = aggregated g n (fun x => M' (c :: x)) i q).
    { intros c i q0. apply IH. intros x L. apply E. cbn. auto with arith. }
    rewrite !X. destruct q; [reflexivity|]. rewrite X. reflexivity.
Qed.
Lemma aggregated_none n : forall M u q, (forall x, M x = None) -> aggregated g n M u q = None.
Proof.
  induction n as [|n IH]; intros M u q E; cbn [aggregated]; rewrite E.
  - destruct q; auto.
  - rewrite !IH by auto. destruct q; auto.
Qed.
(* a bit of a path without entries *)
Lemma aggregated_skip n M u c q : M [] = None -> (forall x, M (negb c :: x) = None) ->
  aggregated g (S n) M u q = match q with [] => None | c' :: q' => if Bool.eqb c' c then aggregated g n (fun x => M (c :: x)) u q' else None end.
Proof.
  intros E0 E1. cbn [aggregated]. rewrite E0.
  assert (X : forall i q, aggregated g n (fun x => M (negb c :: x)) i q = None) by (intros; apply aggregated_none; auto).
  destruct c; cbn [negb] in X.
  - rewrite X. destruct q as [|c' q]; auto. destruct c'; cbn; auto.
  - rewrite X. destruct (aggregated g n (fun x => M (false :: x)) u []); destruct q as [|[] q]; cbn; auto.
Qed.
End AggExt.

Section Fun.
Variable W : N.
Context {T : Type}.
Notation key := (key W).
Notation wf := (wf W).
Notation fk := (@fk W T).
Implicit Types t l r : trie T.
Variable peq : trie T -> trie T -> bool.
Hypothesis peq_sound : forall a b, peq a b = true -> a = b.
Variable eq : comparator T.
Variable isbox : option T -> Prop.
Variable f : option T -> option T -> bool.
Hypothesis Heq : forall x y b, isbox x -> isbox y -> eq x y = Ok b -> b = f x y.
Hypothesis f_refl : forall x, f x x = true.
Hypothesis f_sym : forall x y, f x y = true -> f y x = true.
Hypothesis f_trans : forall x y z, f x y = true -> f y z = true -> f x z = true.

Lemma f_congr x x' y y' : f x x' = true -> f y y' = true -> f x y = f x' y'.
Proof.
  intros A B. destruct (f x y) eqn:E, (f x' y') eqn:E'; auto.
  - rewrite <- E'. symmetry. eapply f_trans; [apply f_sym, A|]. eapply f_trans; eauto.
  - rewrite <- E. eapply f_trans; [exact A|]. eapply f_trans; [exact E'|]. apply f_sym, B.
Qed.

(* the value of the entry with a given key *)
Definition vk (k : list bool) t : option (option T) := option_map snd (fk k t).
Notation oeq := (oeq f).

Lemma oeq_r x : oeq x x.
Proof. destruct x; cbn; auto. Qed.

(* as aggregate_cases, and completely: which case is taken *)
Lemma agg_cases k p d s h a l r u t' :
  wf k (Node p d s h a l r) -> boxed isbox (Node p d s h a l r) -> ubox isbox u ->
  aggregate peq (Node p d s h a l r) u eq = Ok t' ->
  let own := if a then match u with Some x => if f x d then None else Some d | None => Some d end else None in
  let u1 := match own with Some v => Some v | None => u end in
  exists l1 r1, aggregate peq l u1 eq = Ok l1 /\ aggregate peq r u1 eq = Ok r1 /\
    let m := active l1 && active r1 && (plen (prefix_of l1) =? plen p + 1) && (plen (prefix_of l1) =? plen (prefix_of r1))
             && f (data_of l1) (data_of r1) in
    if m then exists d', t' = mk p d' true Nil Nil /\ f d' (data_of l1) = true
    else match own with
         | Some v => t' = mk p v true l1 r1
         | None => (l1 = Nil /\ t' = r1) \/ (r1 = Nil /\ t' = l1) \/ exists d', t' = mk p d' false l1 r1
         end.
Proof.
  intros H Hb Hu Ht. pose proof Hb as (B1 & B2 & B3 & B4). pose proof H as (_ & _ & _ & _ & _ & Hl & Hr). cbn [aggregate] in Ht. cbv zeta.
  set (own := if a then match u with Some x => if f x d then None else Some d | None => Some d end else None).
  set (hd := (if a then
         match u with
         | None => Ok (Some d, true, d)
         | Some ud => e <- eq ud d ;; if negb e then Ok (Some d, true, d) else Ok (u, false, None)
         end
       else Ok (u, false, d))) in *.
  destruct hd as [[[u1 ia] data]| |] eqn:Ehd; cbn [bind] in Ht; try discriminate.
  assert (HD : u1 = match own with Some v => Some v | None => u end /\
     match own with Some v => ia = true /\ data = v /\ v = d | None => ia = false end).
  { unfold own. subst hd. destruct a.
    - specialize (B1 eq_refl). destruct u as [ud|].
      + destruct (eq ud d) as [e| |] eqn:E; cbn in Ehd; try discriminate.
        apply Heq in E; auto. rewrite <- E. destruct e; cbn in Ehd; injection Ehd as <- <- <-; auto.
      + injection Ehd as <- <- <-. auto.
    - injection Ehd as <- <- <-. auto. }
  clear Ehd hd. destruct HD as [Hu1 HD]. rewrite <- Hu1.
  assert (U1 : ubox isbox u1).
  { rewrite Hu1. unfold own. destruct a; auto. destruct u as [x|]; cbn; auto. destruct (f x d); cbn; auto. }
  destruct (aggregate peq l u1 eq) as [l1| |] eqn:El; cbn [bind] in Ht; try discriminate.
  destruct (aggregate peq r u1 eq) as [r1| |] eqn:Er; cbn [bind] in Ht; try discriminate.
  exists l1, r1. split; [auto|]. split; [auto|].
  pose proof (aggregate_boxed W peq peq_sound eq isbox l _ _ _ Hl B3 U1 El) as Bl.
  pose proof (aggregate_boxed W peq peq_sound eq isbox r _ _ _ Hr B4 U1 Er) as Br.
  set (cond := active l1 && active r1 && (plen (prefix_of l1) =? plen p + 1) && (plen (prefix_of l1) =? plen (prefix_of r1))) in *.
  assert (exists ca, (if cond then eq (data_of l1) (data_of r1) else Ok false) = Ok ca /\ ca = (cond && f (data_of l1) (data_of r1))%bool) as (ca & Ec & Hca).
  { destruct cond eqn:Eco; [|eexists; split; [reflexivity|reflexivity]].
    destruct (eq (data_of l1) (data_of r1)) as [e| |] eqn:E; cbn in Ht; try discriminate.
    unfold cond in Eco. rewrite !andb_true_iff in Eco. destruct Eco as [[[A1 A2] _] _].
    eexists; split; [reflexivity|]. cbn. apply Heq; auto; apply boxed_root; auto. }
  rewrite Ec in Ht. cbn [bind] in Ht. rewrite <- Hca.
  destruct ca.
  - cbn [is_nil] in Ht. apply (crv_spec W peq peq_sound eq _ _ _ _ _ _ _ _ _ _ _ _ _ H) in Ht.
    destruct Ht as (d' & -> & Hd & _). exists d'. split; auto. specialize (Hd eq_refl).
    symmetry in Hca. apply andb_true_iff in Hca. destruct Hca as [Hcond _]. unfold cond in Hcond. rewrite !andb_true_iff in Hcond.
    destruct Hcond as [[[A1 A2] _] _]. assert (X : isbox (data_of l1)) by (apply boxed_root; auto).
    destruct Hd as [->|[-> [[-> E]|[N E]]]]; auto.
    + apply f_sym. symmetry. apply Heq in E; auto.
    + symmetry. apply Heq in E; auto. destruct B2; [congruence|auto].
  - destruct own as [v|] eqn:Eo.
    + destruct HD as (-> & -> & ->). apply (crv_spec W peq peq_sound eq _ _ _ _ _ _ _ _ _ _ _ _ _ H) in Ht.
      destruct Ht as (d' & -> & Hd & _). destruct (Hd eq_refl) as [->|[-> _]]; auto.
    + subst ia. destruct l1 as [|pl dl sl hl al ll lr]; cbn [is_nil] in Ht; [injection Ht as <-; auto|].
      right. destruct r1 as [|pr dr sr hr ar rl rr]; cbn [is_nil] in Ht; [injection Ht as <-; auto|].
      right. apply (crv_spec W peq peq_sound eq _ _ _ _ _ _ _ _ _ _ _ _ _ H) in Ht.
      destruct Ht as (d' & -> & _). eauto.
Qed.

Lemma vk_nil k : vk k (@Nil T) = None.
Proof. reflexivity. Qed.
Lemma vk_out k0 t k : wf k0 t -> ~ pre k0 k -> vk k t = None.
Proof. intros H N. unfold vk. rewrite (fk_out W k0) by auto. reflexivity. Qed.
(* the entry at the very top of a child *)
Lemma vk_root k c t : wf (k ++ [c]) t ->
  vk (k ++ [c]) t = if active t && (plen (prefix_of t) =? nlen k + 1) then Some (data_of t) else None.
Proof.
  intros H. destruct t as [|p d s h a l r]; [reflexivity|]. cbn [active prefix_of data_of].
  pose proof H as (Hp & Hk & _ & _ & _ & Hl & Hr).
  destruct (N.eqb_spec (plen p) (nlen k + 1)) as [E|E].
  - assert (K : key p = k ++ [c]).
    { symmetry. apply pre_eq_length; auto. pose proof (nlen_key W p) as N1. unfold nlen in *. rewrite app_length. cbn. lia. }
    unfold vk. rewrite <- K, (fk_here W) by auto. destruct a; auto.
  - rewrite andb_false_r. unfold vk. rewrite (fk_notpre W); auto. intros P.
    pose proof (pre_antisym _ _ Hk P) as X. apply E. rewrite <- (nlen_key W), <- X, nlen_app. reflexivity.
Qed.

Theorem aggregate_fun me : forall n k u t', wf k me -> boxed isbox me -> ubox isbox u -> nlen k + N.of_nat n = W ->
  aggregate peq me u eq = Ok t' ->
  forall q, oeq (vk (k ++ q) t') (aggregated f n (fun x => vk (k ++ x) me) u q).
Proof.
  induction me as [|p d s h a l IHl r IHr].
  { intros n k u t' _ _ _ _ Ht q. cbn in Ht. injection Ht as <-. rewrite aggregated_none; [exact I|auto]. }
  intros n k u t' H. pose proof H as (_ & [m Hm] & _). revert n k H Hm.
  induction m as [|c m IHm]; intros n k H Hm Hb Hu Hn Ht q.
  2:{ (* a bit of the path above the node *)
    assert (H' : wf (k ++ [c]) (Node p d s h a l r)).
    { destruct H as (H1 & _ & H2). split; auto. split; auto. exists m. rewrite Hm, <- app_assoc. reflexivity. }
    assert (Hm' : key p = (k ++ [c]) ++ m) by (rewrite Hm, <- app_assoc; reflexivity).
    destruct n as [|n].
    { exfalso. destruct H as ([_ Hl] & _). pose proof (nlen_key W p) as N1. rewrite Hm, nlen_app, nlen_cons in N1. lia. }
    rewrite (aggregated_skip f n _ u c).
    2:{ rewrite app_nil_r. apply (vk_out _ _ _ H'). apply pre_snoc_not. }
    2:{ intros x. apply (vk_out _ _ _ H'). apply (pre_fork_not k c [] x). }
    pose proof (aggregate_wf W peq peq_sound eq _ _ _ _ H' Ht) as H1.
    destruct q as [|c' q].
    { rewrite app_nil_r. rewrite (vk_out _ _ _ H1) by apply pre_snoc_not. exact I. }
    destruct (Bool.eqb_spec c' c) as [->|Nc].
    - assert (Hn' : nlen (k ++ [c]) + N.of_nat n = W) by (rewrite nlen_app, nlen_cons; change (nlen (@nil bool)) with 0; lia).
      specialize (IHm n (k ++ [c]) H' Hm' Hb Hu Hn' Ht q). rewrite <- app_assoc in IHm. cbn [app] in IHm.
      erewrite aggregated_ext; [exact IHm|]. intros x _. cbn beta. rewrite <- app_assoc. reflexivity.
    - rewrite (vk_out _ _ _ H1); [exact I|]. replace c' with (negb c) by (destruct c, c'; cbn in *; congruence).
      apply (pre_fork_not k c [] q). }
  (* the node itself *)
  rewrite app_nil_r in Hm. pose proof Hb as (B1 & B2 & B3 & B4).
  destruct (agg_cases _ _ _ _ _ _ _ _ _ _ H Hb Hu Ht) as (l1 & r1 & El & Er & Hres). cbv zeta in Hres.
  set (own := if a then match u with Some x => if f x d then None else Some d | None => Some d end else None) in *.
  set (u1 := match own with Some v => Some v | None => u end) in *.
  assert (U1 : ubox isbox u1).
  { unfold u1, own. destruct a; auto. destruct u as [x|]; cbn; auto. destruct (f x d); cbn; auto. }
  pose proof H as (Hp & Hk & _ & _ & _ & Hl & Hr).
  pose proof (aggregate_wf W peq peq_sound eq _ _ _ _ Hl El) as Wl.
  pose proof (aggregate_wf W peq peq_sound eq _ _ _ _ Hr Er) as Wr.
  rewrite <- Hm in *.
  assert (M0 : vk (key p ++ []) (Node p d s h a l r) = if a then Some d else None).
  { rewrite app_nil_r. unfold vk. rewrite (fk_here W) by auto. destruct a; auto. }
  assert (Eown : match vk (key p ++ []) (Node p d s h a l r) with
       | Some v => match u with Some x => if f x v then None else Some v | None => Some v end | None => None end = own).
  { rewrite M0. unfold own. destruct a; auto. }
  assert (NK : nlen (key p) = plen p) by apply nlen_key.
  destruct n as [|n].
  { (* a host address: no children *)
    assert (L0 : forall c t, wf (key p ++ [c]) t -> t = Nil).
    { intros c t Hw. destruct t as [|p' ? ? ? ? ? ?]; auto. exfalso. destruct Hw as ([_ L] & P & _).
      apply pre_length in P. rewrite app_length in P. pose proof (nlen_key W p') as N1. unfold nlen in *. cbn in P. lia. }
    pose proof (L0 _ _ Wl) as ->. pose proof (L0 _ _ Wr) as ->. cbn in Hres.
    cbn [aggregated]. rewrite Eown. destruct own as [v|].
    - subst t'. destruct q as [|c q].
      + rewrite app_nil_r. unfold vk. rewrite fk_mk. destruct (keq (key p) (key p)); [|congruence]. cbn. auto.
      + unfold vk. rewrite fk_mk. destruct (keq (key p) (key p ++ c :: q)) as [E|_]; [|exact I].
        exfalso. apply (f_equal (@length bool)) in E. rewrite app_length in E. cbn in E. lia.
    - assert (t' = Nil) as ->.
      { destruct Hres as [[_ ->]|[[_ ->]|[d' ->]]]; auto. exfalso.
        pose proof (aggregate_wf W peq peq_sound eq _ _ _ _ H Ht) as (_ & _ & _ & _ & X & _). destruct X as [X _]; auto. }
      destruct q; exact I. }
  assert (Hn' : forall c, nlen (key p ++ [c]) + N.of_nat n = W) by (intros c; rewrite nlen_app, nlen_cons; change (nlen (@nil bool)) with 0; lia).
  assert (Bel : forall c q, oeq (vk (key p ++ c :: q) (kid c l1 r1))
             (aggregated f n (fun x => vk (key p ++ c :: x) (Node p d s h a l r)) u1 q)).
  { intros c q0.
    assert (X : oeq (vk ((key p ++ [c]) ++ q0) (kid c l1 r1)) (aggregated f n (fun x => vk ((key p ++ [c]) ++ x) (kid c l r)) u1 q0)).
    { destruct c; cbn [kid]; [eapply IHr|eapply IHl]; eauto. }
    rewrite <- app_assoc in X. cbn [app] in X. erewrite aggregated_ext; [exact X|].
    intros x _. cbn beta. rewrite <- app_assoc. cbn [app]. unfold vk. rewrite (fk_below W) by auto. reflexivity. }
  assert (Top : forall c, oeq (if active (kid c l1 r1) && (plen (prefix_of (kid c l1 r1)) =? plen p + 1) then Some (data_of (kid c l1 r1)) else None)
             (aggregated f n (fun x => vk (key p ++ c :: x) (Node p d s h a l r)) u1 [])).
  { intros c. specialize (Bel c []). rewrite vk_root in Bel by (destruct c; auto). rewrite NK in Bel. exact Bel. }
  cbn [aggregated]. rewrite Eown. fold u1.
  pose proof (Top false) as T0. pose proof (Top true) as T1. cbn [kid] in T0, T1.
  pose proof (Bel false) as Bl. pose proof (Bel true) as Br. cbn [kid] in Bl, Br. clear Bel Top.
  set (b0 := aggregated f n (fun x => vk (key p ++ false :: x) (Node p d s h a l r)) u1) in *.
  set (b1 := aggregated f n (fun x => vk (key p ++ true :: x) (Node p d s h a l r)) u1) in *.
  assert (EC : active l1 && active r1 && (plen (prefix_of l1) =? plen p + 1) && (plen (prefix_of l1) =? plen (prefix_of r1))
     = (active l1 && (plen (prefix_of l1) =? plen p + 1)) && (active r1 && (plen (prefix_of r1) =? plen p + 1))).
  { destruct (active l1), (active r1), (N.eqb_spec (plen (prefix_of l1)) (plen p + 1)) as [->|]; cbn; auto.
    rewrite N.eqb_sym. reflexivity. }
  rewrite EC in Hres. clear EC.
  set (c0 := active l1 && (plen (prefix_of l1) =? plen p + 1)) in *.
  set (c1 := active r1 && (plen (prefix_of r1) =? plen p + 1)) in *.
  assert (MG : if c0 && c1 && f (data_of l1) (data_of r1)
     then exists x, match b0 [] with Some x => match b1 [] with Some y => if f x y then Some x else None | None => None end | None => None end = Some x
            /\ f (data_of l1) x = true
     else match b0 [] with Some x => match b1 [] with Some y => if f x y then Some x else None | None => None end | None => None end = None).
  { clear Hres. destruct c0, c1; cbn [andb]; destruct (b0 []) as [x|]; cbn in T0; try tauto; destruct (b1 []) as [y|]; cbn in T1; try tauto; auto.
    rewrite (f_congr _ _ _ _ T0 T1). destruct (f x y); eauto. }
  clear T0 T1. destruct (c0 && c1 && f (data_of l1) (data_of r1)).
  - destruct MG as (x & -> & Fx). destruct Hres as (d' & -> & Fd). destruct q as [|c q].
    + rewrite app_nil_r. unfold vk. rewrite fk_mk. destruct (keq (key p) (key p)); [|congruence]. cbn. eauto.
    + unfold vk. rewrite fk_mk. destruct (keq (key p) (key p ++ c :: q)) as [E|_]; [|exact I].
      exfalso. apply (f_equal (@length bool)) in E. rewrite app_length in E. cbn in E. lia.
  - rewrite MG. clear MG.
    assert (X : oeq (vk (key p ++ q) (mk p d (match own with Some _ => true | None => false end) l1 r1)) (match q with [] => own | c :: q' => (if c then b1 else b0) q' end)).
    { unfold mk. destruct q as [|c q].
      - rewrite app_nil_r. unfold vk. rewrite (fk_here W) by auto. unfold own. destruct a; [|exact I].
        destruct u as [x|]; [destruct (f x d)|]; cbn; auto.
      - unfold vk. rewrite (fk_below W) by auto. destruct c; [apply Br|apply Bl]. }
    replace (match q with [] => own | c :: q' => aggregated f n (fun x => vk (key p ++ c :: x) (Node p d s h a l r)) u1 q' end)
      with (match q with [] => own | c :: q' => (if c then b1 else b0) q' end) by (destruct q as [|[] q]; reflexivity).
    destruct own as [v|] eqn:Eo.
    + subst t'. assert (v = d) as ->; [|exact X].
      clear -Eo. subst own. destruct a; [|discriminate]. destruct u as [x|]; [destruct (f x d)|]; congruence.
    + assert (Y : vk (key p ++ q) t' = vk (key p ++ q) (mk p d false l1 r1)); [|rewrite Y; exact X].
      unfold vk. rewrite fk_mk. destruct Hres as [[-> ->]|[[-> ->]|[d' ->]]].
      * reflexivity.
      * destruct (fk (key p ++ q) l1); reflexivity.
      * rewrite fk_mk. reflexivity.
Qed.
End Fun.

(* ---- maps with one value only: the result is the set of maximal covered prefixes ---- *)
Section Single.
Context {V : Type}.
Variable g : V -> V -> bool.

Lemma aggregated_val n : forall M u q v, aggregated g n M u q = Some v -> exists x, M x = Some v.
Proof.
  induction n as [|n IH]; intros M u q v; cbn [aggregated].
  - set (own := match M [] with Some _ => _ | None => None end).
    assert (O : own = Some v -> exists x, M x = Some v).
    { unfold own. intros E. exists []. destruct (M []) as [w|]; [|discriminate]. destruct u as [x|]; [destruct (g x w)|]; congruence. }
    destruct q; [auto|discriminate].
  - set (own := match M [] with Some _ => _ | None => None end).
    assert (O : own = Some v -> exists x, M x = Some v).
    { unfold own. intros E. exists []. destruct (M []) as [w|]; [|discriminate]. destruct u as [x|]; [destruct (g x w)|]; congruence. }
    set (i := match own with Some _ => _ | None => u end).
    assert (B : forall c q v, aggregated g n (fun x => M (c :: x)) i q = Some v -> exists x, M x = Some v).
    { intros c q0 v0 E. apply IH in E. destruct E as [x E]. eauto. }
    destruct (aggregated g n (fun x => M (false :: x)) i []) as [x|] eqn:E0.
    + destruct (aggregated g n (fun x => M (true :: x)) i []) as [y|] eqn:E1; [destruct (g x y)|].
      * destruct q; [|discriminate]. intros [= ->]. eauto.
      * destruct q; eauto.
      * destruct q; eauto.
    + destruct q; eauto.
Qed.

Definition uniform (M : list bool -> option V) : Prop := forall x y v w, M x = Some v -> M y = Some w -> g v w = true.

Lemma aggregated_under n : forall M w q, (forall x v, M x = Some v -> g w v = true) -> aggregated g n M (Some w) q = None.
Proof.
  induction n as [|n IH]; intros M w q U; cbn [aggregated].
  - destruct (M []) as [v|] eqn:E; [rewrite (U _ _ E)|]; destruct q; auto.
  - assert (match M [] with Some v => if g w v then None else Some v | None => None end = None) as ->
      by (destruct (M []) as [v|] eqn:E; auto; rewrite (U _ _ E); auto).
    rewrite !IH by eauto. destruct q; auto. apply IH. eauto.
Qed.

(* a host string is covered, a prefix is covered throughout *)
Definition cov (M : list bool -> option V) (h : list bool) : Prop := exists x, pre x h /\ M x <> None.
Definition fullat (n : nat) (M : list bool -> option V) (k : list bool) : Prop :=
  forall h, length h = n -> pre k h -> cov M h.

Lemma cov_cons M c h : M [] = None -> cov M (c :: h) <-> cov (fun x => M (c :: x)) h.
Proof.
  intros E. split.
  - intros (x & [m P] & N). destruct x as [|b x]; [congruence|]. cbn in P. injection P as <- ->. exists x. split; auto. apply pre_app_r.
  - intros (x & [m ->] & N). exists (c :: x). split; auto. exists m. reflexivity.
Qed.
Lemma pre_cons c k h : pre (c :: k) (c :: h) <-> pre k h.
Proof. apply (pre_app_cancel [c]). Qed.
Lemma fullat_cons n M c k : M [] = None -> fullat (S n) M (c :: k) <-> fullat n (fun x => M (c :: x)) k.
Proof.
  intros E. split.
  - intros F h L P. apply cov_cons; auto. apply F; [cbn; auto|]. apply pre_cons. exact P.
  - intros F h L P. destruct h as [|b h]; [discriminate|]. assert (b = c) as -> by (destruct P as [m P]; cbn in P; congruence).
    apply (cov_cons M c h E). apply F; [cbn in L; lia|]. apply (proj1 (pre_cons c k h) P).
Qed.
Lemma fullat_nil n M : M [] = None -> fullat (S n) M [] <-> fullat n (fun x => M (false :: x)) [] /\ fullat n (fun x => M (true :: x)) [].
Proof.
  intros E. split.
  - intros F. split; (intros h L _; apply cov_cons; auto; apply F; [cbn; auto|apply pre_nil]).
  - intros [F0 F1] h L _. destruct h as [|b h]; [discriminate|]. apply cov_cons; auto. cbn in L. injection L as L.
    destruct b; [apply F1|apply F0]; auto using pre_nil.
Qed.
Lemma fullat_top n M k v : M [] = Some v -> fullat n M k.
Proof. intros E h _ _. exists []. split; [apply pre_nil|congruence]. Qed.

Theorem aggregated_single n : forall M, uniform M -> forall k, (length k <= n)%nat ->
  (aggregated g n M None k <> None <-> fullat n M k /\ forall k' c, k = k' ++ [c] -> ~ fullat n M k').
Proof.
  induction n as [|n IH]; intros M U k L; cbn [aggregated].
  - assert (match M [] with Some v => Some v | None => None end = M []) as -> by (destruct (M []); auto).
    destruct k; [|cbn in L; lia]. split.
    + intros N. split; [intros h _ _; exists []; split; [apply pre_nil|auto]|]. intros k' c E. destruct k'; discriminate.
    + intros [F _]. destruct (F [] eq_refl (pre_nil _)) as (x & [m P] & N). destruct x; [auto|discriminate].
  - assert (match M [] with Some v => Some v | None => None end = M []) as -> by (destruct (M []); auto).
    assert (NIL : forall k' (c : bool), [] = k' ++ [c] -> False) by (intros [|? ?] c E; discriminate).
    assert (LAST : forall c (q : list bool), exists k' c', c :: q = k' ++ [c']).
    { intros c q. destruct (@exists_last _ (c :: q) ltac:(discriminate)) as (k' & c' & E). eauto. }
    destruct (M []) as [v|] eqn:E.
    + assert (X : forall c q, aggregated g n (fun x => M (c :: x)) (Some v) q = None).
      { intros c q. apply aggregated_under. intros x w Hx. eapply U; eauto. }
      rewrite X. destruct k as [|c q].
      * split; [|congruence]. intros _. split; [eapply fullat_top; eauto|]. intros k' c Ek. exfalso; eauto.
      * rewrite X. split; [congruence|]. intros [_ NF]. destruct (LAST c q) as (k' & c' & Ek). exfalso. eapply NF; eauto. eapply fullat_top; eauto.
    + assert (UU : forall c, uniform (fun x => M (c :: x))) by (intros c x y v w Hx Hy; eapply U; eauto).
      assert (I : forall c q, (length q <= n)%nat -> aggregated g n (fun x => M (c :: x)) None q <> None <->
         fullat (S n) M (c :: q) /\ forall k' c', q = k' ++ [c'] -> ~ fullat (S n) M (c :: k')).
      { intros c q Lq. rewrite (IH _ (UU c)) by auto. rewrite fullat_cons by auto. split; intros [F NF]; split; auto; intros k' c' Ek.
        - rewrite fullat_cons by auto. eauto.
        - rewrite <- fullat_cons by auto. eauto. }
      pose proof (I false [] ltac:(cbn; lia)) as I0. pose proof (I true [] ltac:(cbn; lia)) as I1.
      pose proof (fullat_nil n M E) as FN. rewrite <- !fullat_cons in FN by auto.
      destruct (aggregated g n (fun x => M (false :: x)) None []) as [x|] eqn:E0.
      * destruct (aggregated g n (fun x => M (true :: x)) None []) as [y|] eqn:E1.
        -- assert (g x y = true) as ->.
           { apply aggregated_val in E0. apply aggregated_val in E1. destruct E0 as [x0 E0], E1 as [y0 E1]. eapply U; eauto. }
           assert (F : fullat (S n) M []).
           { apply FN. split; [apply I0|apply I1]; congruence. }
           assert (FA : forall k, fullat (S n) M k) by (intros k0 h Lh _; apply F; auto using pre_nil).
           destruct k as [|c q].
           ++ split; [|congruence]. intros _. split; auto. intros k' c Ek. exfalso; eauto.
           ++ split; [congruence|]. intros [_ NF]. destruct (LAST c q) as (k' & c' & Ek). exfalso. eapply NF; eauto.
        -- assert (NF : ~ fullat (S n) M []).
           { intros F. apply FN in F. apply I1; [|reflexivity]. split; [apply F|]. intros k' c' Ek. exfalso; eauto. }
           destruct k as [|c q]; [split; [congruence|tauto]|]. cbn in L. rewrite I by lia. split; intros [F K]; split; auto.
           ++ intros k' c' Ek. destruct k' as [|b k']; [auto|]. cbn in Ek. injection Ek as <- ->. eauto.
           ++ intros k' c' ->. apply (K (c :: k') c'). reflexivity.
      * assert (NF : ~ fullat (S n) M []).
        { intros F. apply FN in F. apply I0; [|reflexivity]. split; [apply F|]. intros k' c' Ek. exfalso; eauto. }
        destruct k as [|c q]; [split; [congruence|tauto]|]. cbn in L. rewrite I by lia. split; intros [F K]; split; auto.
        -- intros k' c' Ek. destruct k' as [|b k']; [auto|]. cbn in Ek. injection Ek as <- ->. eauto.
        -- intros k' c' ->. apply (K (c :: k') c'). reflexivity.
Qed.
End Single.
