(* ConcYield.v - the modifying calls of a table other than Remove return the root
   they were given or a node they have allocated themselves.  (Remove may return
   a child of the root.) *)
From Verif Require Export ConcTableProof.
From Coq Require Import Arith ZifyBool ZifyNat ZifyN.
Local Open Scope prog_scope.

Definition ours (me q : ptr) (O : nat -> Prop) : Prop := q = me \/ exists l, q = Some l /\ O l.

Section Y.
Variable W : N.
Context {T : Type}.
Variable ieq : option T -> option T -> res bool.
Implicit Types (O : nat -> Prop) (me p : ptr) (eq : comparator T).
Hint Resolve ownp_NumNodes ownp_height ownp_active ownp_flatten : own.
Ltac own_side := unfold incl_s in *; auto 20 with own.

Lemma ours_mono me q O O' : ours me q O -> incl_s O O' -> ours me q O'.
Proof. intros [->|(l & -> & H)] I; [left; auto|right; eauto]. Qed.
Lemma own_mutate l (mut : nat -> prog T unit) O : O l ->
  (forall O', incl_s O O' -> ownp O' (mut l) any) -> ownp O (h_mutate (Some l) mut) (fun q O' => q = Some l /\ O' l).
Proof.
  intros H K. unfold h_mutate. apply ownp_bind_any; [apply K; apply incl_refl|]. intros _ O1 I1.
  repeat (apply ownp_bind_any; [solve [auto with own|apply ownp_store; own_side]|intros ? ? ?]).
  apply ownp_ret. split; auto 20.
Qed.
Lemma own_copyMutate me (mut : nat -> prog T unit) O :
  (forall l O', incl_s O O' -> O' l -> ownp O' (mut l) any) -> ownp O (h_copyMutate ieq me mut) (ours me).
Proof.
  intros K. unfold h_copyMutate. destruct me as [l0|]; [|left; reflexivity]. apply ownp_bind_any; [auto with own|]. intros n0 O1 I1.
  eapply ownp_bind; [apply ownp_alloc|]. cbn beta. intros l O2 I2 H2.
  eapply ownp_bind; [apply own_mutate; auto; intros O3 I3; apply K; auto|].
  { intros i X. auto. }
  cbn beta. intros r O3 I3 [-> H3].
  repeat (apply ownp_bind_any; [solve [auto with own]|intros ? ? ?]).
  destruct a1; apply ownp_ret; [left; reflexivity|right]. exists l. split; auto 20.
Qed.
Lemma own_insert_nil node (o : insertOpts) O : O node -> ownp O (@h_insert_nil T node o) (fun r O' => ours None (fst r) O' /\ O' node).
Proof.
  intros H. unfold h_insert_nil. destruct (negb _); [apply ownp_ret; split; auto; left; reflexivity|].
  eapply ownp_bind; [apply own_mutate; auto; intros; apply ownp_modify; auto|]. cbn beta. intros q O' I [-> H']. apply ownp_ret. split; auto.
  right. exists node. auto.
Qed.
Lemma own_insert fuel : forall me node (o : insertOpts) O, O node -> ownp O (h_insert W ieq fuel me node o) (fun r O' => ours me (fst r) O').
Proof.
  induction fuel; intros me node o O H; cbn [h_insert]; [exact I|].
  destruct me as [l|]; [|eapply ownp_conseq; [apply own_insert_nil; auto|cbn; tauto]].
  apply ownp_bind_any; [auto with own|]. intros m O1 I1. apply ownp_bind_any; [auto with own|]. intros nn O2 I2.
  assert (SAME : forall O' e, ownp O' (@ret T _ (Some l, e)) (fun (r : ptr * option terr) O' => ours (Some l) (fst r) O')).
  { intros. apply ownp_ret. left. reflexivity. }
  assert (MINE : forall O' (mut : nat -> prog T unit), O' node -> (forall O2, incl_s O' O2 -> ownp O2 (mut node) any) ->
     ownp O' (r <- h_mutate (Some node) mut ;; ret (r, None)) (fun (r : ptr * option terr) O' => ours (Some l) (fst r) O')).
  { intros O' mut H' K. eapply ownp_bind; [apply own_mutate; auto|]. cbn beta. intros q O3 I3 [-> H3]. apply ownp_ret. right. exists node. auto. }
  destruct (compare W (hPrefix m) (hPrefix nn)) as [[[result reversed] common] child]. destruct result.
  - destruct (_ && _); [apply SAME|]. destruct (_ && _); [apply SAME|]. destruct (o_flatten o); [apply SAME|].
    apply MINE; [auto|]. intros O3 I3. osolve; try (apply ownp_modify; auto 10); own_side.
  - destruct (_ && _); [apply SAME|]. apply ownp_bind_any; [apply ownp_insert; auto|]. intros [newChild [e|]] O3 I3; [apply SAME|].
    eapply ownp_bind.
    + apply own_copyMutate. intros n O4 I4 H4. osolve; try (apply ownp_modify); own_side.
    + cbn beta. intros q O4 I4 H4. apply ownp_ret. exact H4.
  - destruct (negb _); [apply SAME|]. apply MINE; [auto|]. intros O3 I3. osolve; try (apply ownp_modify; auto 10); own_side.
  - apply ownp_bind_any; [apply ownp_insert_nil; auto|]. intros [newChild [e|]] O3 I3; [apply SAME|].
    destruct (if xorb child reversed then _ else _) as [x y]. eapply ownp_bind; [apply ownp_alloc|]. cbn beta. intros n O4 I4 H4.
    eapply ownp_bind; [apply own_mutate; auto; intros O5 I5; osolve; own_side|]. cbn beta. intros _ O5 I5 [_ H5]. apply ownp_ret. right. exists n. auto.
Qed.
Lemma own_Insert me k v O : ownp O (h_Insert W ieq me k v) (fun r O' => ours me (fst r) O').
Proof. eapply ownp_bind; [apply ownp_alloc|]. cbn beta. intros l O' I H. apply own_insert. exact H. Qed.
Lemma own_Update me k v eq O : ownp O (h_Update W ieq me k v eq) (fun r O' => ours me (fst r) O').
Proof. eapply ownp_bind; [apply ownp_alloc|]. cbn beta. intros l O' I H. apply own_insert. exact H. Qed.
Lemma own_InsertOrUpdate me k v eq O : ownp O (h_InsertOrUpdate W ieq me k v eq) (ours me).
Proof.
  eapply ownp_bind; [apply ownp_alloc|]. cbn beta. intros l O' I H. eapply ownp_bind; [apply own_insert; exact H|].
  cbn beta. intros [q [e|]] O2 I2 H2; [exact Logic.I|]. apply ownp_ret. exact H2.
Qed.
Lemma own_goi me k v O : ownp O (h_goi_insert W ieq me k v) (fun r O' => ours me (fst r) O').
Proof.
  eapply ownp_bind; [apply ownp_alloc|]. cbn beta. intros l O' I H. eapply ownp_bind; [apply own_insert; exact H|].
  cbn beta. intros [q [e|]] O2 I2 H2; [exact Logic.I|]. apply ownp_ret. exact H2.
Qed.
Lemma own_GetOrInsert fuel : forall me k v O, ownp O (h_GetOrInsert W ieq fuel me k v) (fun r O' => ours me (fst r) O').
Proof.
  induction fuel; intros; cbn [h_GetOrInsert]; [exact I|]. destruct me as [l|]; [|apply own_goi].
  apply ownp_bind_any; [auto with own|]. intros m O1 I1. destruct (_ <? _); [apply own_goi|].
  destruct (contains W (hPrefix m) k) as [[[matches exact] ?] child]. destruct (negb matches); [apply own_goi|].
  destruct (negb exact).
  - apply ownp_bind_any; [apply ownp_GetOrInsert|]. intros [newChild result] O2 I2.
    eapply ownp_bind; [apply own_copyMutate; intros; apply ownp_modify; auto|]. cbn beta. intros q O3 I3 H3. apply ownp_ret. exact H3.
  - destruct (negb (hactive m)); [apply own_goi|]. apply ownp_ret. left. reflexivity.
Qed.

Variable zeroT : T.
Variable box : T -> option T.
Variable goeq : T -> T -> res bool.
Definition is_remove (o : op T) : bool := match o with OpRemove _ => true | _ => false end.
End Y.

(* Remove returns the root, or a node of its own, or a child of the root *)
Lemma own_del W {T} (ieq : option T -> option T -> res bool) fuel me k (n0 : hnode T) O :
  owng (fun l n => me = Some l -> n = n0) O (h_del W ieq fuel me k)
    (fun r O' => ours me (fst r) O' \/ me <> None /\ (fst r = hc0 n0 \/ fst r = hc1 n0)).
Proof.
  destruct fuel as [|fuel]; cbn [h_del]; [exact I|]. destruct me as [l|]; [|apply ownp_owng; apply ownp_ret; left; left; reflexivity].
  cbn [load pbind owng]. intros m Hm. specialize (Hm eq_refl). subst n0. unfold ret at 1. cbn [pbind].
  destruct (compare W (hPrefix m) k) as [[[result ?] ?] child]. destruct result.
  - destruct (nilp (hc0 m)); [apply ownp_owng; apply ownp_ret; right; cbn; split; [discriminate|auto]|]. destruct (nilp (hc1 m)); [apply ownp_owng; apply ownp_ret; right; cbn; split; [discriminate|auto]|].
    apply ownp_owng. eapply ownp_bind.
    + apply own_copyMutate. intros n9 O' I H. apply ownp_bind_any; [apply ownp_modify; auto|]. intros _ O2 I2. apply ownp_modify; auto.
    + cbn beta. intros q O' I H. apply ownp_ret. left. exact H.
  - apply ownp_owng. apply ownp_bind_any; [apply ownp_del|]. intros [newChild [e|]] O1 I1; [apply ownp_ret; left; left; reflexivity|].
    destruct (_ && _); [apply ownp_ret; right; cbn; split; [discriminate|]; destruct child; cbn; auto|].
    eapply ownp_bind; [apply own_copyMutate; intros; apply ownp_modify; auto|]. cbn beta. intros q O2 I2 H. apply ownp_ret. left. exact H.
  - apply ownp_owng. apply ownp_ret. left. left. reflexivity.
  - apply ownp_owng. apply ownp_ret. left. left. reflexivity.
Qed.

Lemma t_yields W {T} (zeroT : T) box goeq (o : op T) (x : ptr * option (comparator T)) xs n0 :
  yields (is_remove o) none (fst x) n0 (t_wprog W zeroT box goeq o x xs).
Proof.
  destruct x as [p e]. unfold yields. destruct o; cbn [t_wprog fst is_remove]; [apply ownp_owng .. |].
  - eapply ownp_bind; [apply own_Insert|]. cbn beta. intros [n [err|]] O _ H; apply ownp_ret; cbn [fst]; intros q' E0; [discriminate|]. injection E0 as <-. destruct H; auto.
  - eapply ownp_bind; [apply own_Update|]. cbn beta. intros [n [err|]] O _ H; apply ownp_ret; cbn [fst]; intros q' E0; [discriminate|]. injection E0 as <-. destruct H; auto.
  - eapply ownp_bind; [apply own_InsertOrUpdate|]. cbn beta. intros n O _ H; apply ownp_ret; cbn [fst]; intros q' E0. injection E0 as <-. destruct H; auto.
  - eapply ownp_bind; [apply own_GetOrInsert|]. cbn beta. intros [n r] O I H. apply ownp_bind_any; [apply ownp_load|]. intros a O' I'.
    apply ownp_ret; cbn [fst]; intros q' E0. injection E0 as <-. eapply ours_mono in H; [|exact I']. destruct H; auto.
  - eapply owng_bind; [apply own_del|]. cbn beta. intros [n err] O _ H. cbn [fst] in *. intros q' E0. injection E0 as <-.
    destruct H as [[->|H]|H]; auto.
Qed.

(* how many entries the modifying calls leave *)
Section Count.
Variable W : N.
Context {T : Type}.
Implicit Types t l r : trie T.
Notation count t := (length (entries t)).
Lemma count_kid c l r : (count (kid c l r) + count (kid (negb c) l r) = count l + count r)%nat.
Proof. destruct c; cbn; lia. Qed.
Lemma count_set c x l r : (count (setl c x l) + count (setr c x r) = count x + count (kid (negb c) l r))%nat.
Proof. destruct c; cbn; lia. Qed.
Lemma count_node (p : prefix) (d : option T) s h a l r : count (Node p d s h a l r) = ((if a then 1 else 0) + count l + count r)%nat.
Proof. cbn [entries]. rewrite !app_length. destruct a; cbn; lia. Qed.
Lemma count_del k t : (count (fst (del W t k)) <= count t)%nat.
Proof.
  induction t as [|p d s h a l IHl r IHr]; [cbn; lia|]. cbn [del]. destruct (compare W p k) as [[[result ?] ?] child].
  destruct result; cbn [fst]; [| |lia|lia].
  - destruct (is_nil l); [rewrite count_node; cbn [fst]; lia|]. destruct (is_nil r); cbn [fst]; [rewrite count_node; lia|]. unfold mk. rewrite !count_node. lia.
  - assert (IH : (count (fst (del W (kid child l r) k)) <= count (kid child l r))%nat) by (destruct child; assumption).
    pose proof (count_kid child l r). destruct (del W (kid child l r) k) as [newChild [e|]]; cbn [fst] in *; [lia|].
    destruct (_ && _); cbn [fst]; [rewrite count_node; lia|]. unfold mk. rewrite !count_node. pose proof (count_set child newChild l r). lia.
Qed.
Lemma count_update np nd (o : insertOpts) : o_insert o = false -> o_flatten o = false -> forall t t' err, insert W t np nd o = Ok (t', err) -> (count t' <= count t)%nat.
Proof.
  intros Ho Hf. induction t as [|p d s h a l IHl r IHr]; intros t' err E; cbn [insert] in E.
  - unfold insert_nil in E. rewrite Ho in E. cbn in E. injection E as <- _. cbn; lia.
  - destruct (compare W p np) as [[[result reversed] common] child]. destruct result.
    + rewrite Ho in E. cbn [negb] in E. destruct a; cbn [andb negb] in E; [|injection E as <- _; lia].
      destruct (negb (o_update o)); [injection E as <- _; lia|]. destruct (o_flatten o); [injection E as <- _; lia|].
      destruct (o_eq o d nd) as [b| |]; cbn [bind] in E; try discriminate. injection E as <- _. unfold mk. rewrite !count_node. lia.
    + destruct (o_flatten o && a); [injection E as <- _; lia|].
      destruct (insert W (kid child l r) np nd o) as [[newChild err']| |] eqn:Ei; cbn [bind] in E; try discriminate.
      assert (IH : (count newChild <= count (kid child l r))%nat) by (destruct child; [eapply IHr|eapply IHl]; exact Ei).
      destruct err'; [injection E as <- _; lia|]. unfold mk_opt in E. rewrite Hf in E. cbn [bind] in E.
      pose proof (count_kid child l r). pose proof (count_set child newChild l r). injection E as <- _. unfold mk. rewrite !count_node. lia.
    + rewrite Ho in E. cbn in E. injection E as <- _. lia.
    + unfold insert_nil in E. rewrite Ho in E. cbn in E. injection E as <- _. lia.
Qed.
Lemma count_kid_lt k t t' : wf W k t -> kid_of t' t -> (count t' < count t)%nat.
Proof.
  intros Hw K. destruct t as [|p d s h a l r]; [contradiction|]. cbn in K. rewrite count_node.
  destruct Hw as (_ & _ & _ & _ & Ha & Hl & Hr).
  assert (NE : forall k t, wf W k t -> t <> Nil -> (1 <= count t)%nat).
  { intros k0 t0 H0 N0. pose proof (entries_nonnil W _ _ H0 N0). destruct (entries t0); [congruence|cbn; lia]. }
  destruct a.
  - destruct K as [->| ->]; lia.
  - destruct (Ha eq_refl) as [Nl Nr]. pose proof (NE _ _ Hl Nl). pose proof (NE _ _ Hr Nr). destruct K as [->| ->]; lia.
Qed.
End Count.
