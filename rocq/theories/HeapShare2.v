(* HeapShare2.v - modifications of a table share nodes with the table they started
   from: what is lost and what is new. *)
From Verif Require Export HeapShare PropsCost2.
From Verif Require Import KeyMore SetProof.
From Coq Require Import Arith Lia ZifyBool ZifyNat ZifyN.
Local Open Scope nat_scope.

Lemma wpi_run_new {T A} (p : prog T A) : forall (S : nat -> Prop) h Q, dom S h -> wpi S h p Q ->
  exists S', Q (snd (run p h)) S' (fst (run p h)) /\ forall i, S' i -> S i \/ length h <= i < length (fst (run p h)).
Proof.
  induction p as [r|n k IH|l k IH|l n p IH]; intros S h0 Q D H0; cbn [wpi run] in *.
  - exists S. auto.
  - destruct (IH (length h0) (plus1 (length h0) S) (h0 ++ [n]) Q) as (S' & K1 & K2).
    + apply dom_alloc. exact D.
    + apply H0. apply rely_refl.
    + exists S'. split; auto. intros i Hi. rewrite app_length in K2. cbn [length] in K2.
      assert (L : length h0 + 1 <= length (fst (run (k (length h0)) (h0 ++ [n])))).
      { clear. assert (G : forall (m : prog T A) h, length h <= length (fst (run m h))).
        { induction m as [r|x kk IH|l kk IH|l x m IH]; intros h; cbn [run fst]; auto.
          - specialize (IH (length h) (h ++ [x])). rewrite app_length in IH. lia.
          - destruct (nth_error h l); [apply IH|cbn; lia].
          - specialize (IH (Heap.upd h l x)). rewrite upd_length in IH. lia. }
        specialize (G (k (length h0)) (h0 ++ [n])). rewrite app_length in G. exact G. }
      destruct (K2 i Hi) as [[->|X]|X]; [right; lia|auto|right; lia].
  - destruct H0 as (Hl & n & E & H0). rewrite E. apply (IH n S h0 Q); auto.
  - destruct H0 as (Hl & H0). specialize (H0 h0 (rely_refl _ _)). specialize (IH S _ Q (dom_upd _ _ _ _ D) H0). rewrite upd_length in IH. exact IH.
Qed.

Section Counts.
Variable W : N.
Context {T : Type}.
Notation wf := (wf W).
Lemma nc_kid c (l r : trie T) x : node_count (setl c x l) + node_count (setr c x r) + node_count (kid c l r) = node_count l + node_count r + node_count x.
Proof. destruct c; cbn; lia. Qed.
Lemma insert_count (o : @insertOpts T) : o_flatten o = false -> forall t p d t' e, insert W t p d o = Ok (t', e) -> node_count t <= node_count t'.
Proof.
  intros F. induction t as [|q d0 s h a l IHl r IHr]; intros p d t' e E; [cbn; lia|].
  cbn [insert] in E. unfold mk_opt in E. rewrite F in E. destruct (compare W q p) as [[[result reversed] common] child]. destruct result; cbn [negb andb] in E.
  - destruct (a && _); [injection E as <- <-; auto|]. destruct (negb a && _); [injection E as <- <-; auto|].
    destruct (if a then _ else _) as [keep| |]; cbn [bind] in E; try discriminate. injection E as <- <-. cbn. lia.
  - destruct (insert W (kid child l r) p d o) as [[c er]| |] eqn:Ek; cbn [bind] in E; try discriminate.
    destruct er; [injection E as <- <-; auto|]. cbn [bind] in E. injection E as <- <-.
    assert (X : node_count (kid child l r) <= node_count c) by (destruct child; [eapply IHr|eapply IHl]; exact Ek).
    pose proof (nc_kid child l r c). cbn [mk node_count]. lia.
  - destruct (negb _); [injection E as <- <-; auto|]. cbn [bind] in E. injection E as <- <-. destruct child; cbn; lia.
  - unfold insert_nil in E. destruct (negb _); [injection E as <- <-; auto|]. destruct (xorb child reversed); cbn [bind] in E; injection E as <- <-; cbn; lia.
Qed.
Lemma goi_count : forall t p (d : option T) t' e, GetOrInsert W t p d = Ok (t', e) -> node_count t <= node_count t'.
Proof.
  assert (G : forall t p (d : option T) t' e, goi_insert W t p d = Ok (t', e) -> node_count t <= node_count t').
  { intros t p d t' e E. unfold goi_insert, Insert in E. destruct (insert W t p d _) as [[h er]| |] eqn:EI; cbn [bind] in E; try discriminate.
    destruct er; [discriminate|]. injection E as <- <-. eapply insert_count; [|exact EI]. reflexivity. }
  induction t as [|q d0 s h a l IHl r IHr]; intros p d t' e E; [cbn; lia|].
  cbn [GetOrInsert] in E. destruct (_ <? _)%N; [eauto|]. destruct (contains W q p) as [[[matches exact] common] child].
  destruct (negb matches); [eauto|]. destruct (negb exact).
  - destruct (GetOrInsert W (kid child l r) p d) as [[c er]| |] eqn:Ek; cbn [bind] in E; try discriminate. injection E as <- <-.
    assert (X : node_count (kid child l r) <= node_count c) by (destruct child; [eapply IHr|eapply IHl]; exact Ek).
    pose proof (nc_kid child l r c). cbn [mk node_count]. lia.
  - destruct (negb a); [eauto|]. injection E as <- <-. auto.
Qed.
Lemma del_count : forall t k p (t' : trie T) e, wf k t -> del W t p = (t', e) -> node_count t <= node_count t' + 2 /\ (t' = Nil -> node_count t <= 1).
Proof.
  induction t as [|q d0 s h a l IHl r IHr]; intros k p t' e Hw E; [cbn in *; lia|].
  cbn in Hw. destruct Hw as (_ & _ & _ & _ & Ha & Hl & Hr).
  cbn [del] in E. destruct (compare W q p) as [[[result reversed] common] child]. destruct result.
  - destruct (is_nil l) eqn:Nl; [destruct l; [|discriminate]; injection E as <- <-; split; [cbn; lia|intros ->; cbn; lia]|].
    destruct (is_nil r) eqn:Nr; [destruct r; [|discriminate]; injection E as <- <-; split; [cbn; lia|intros ->; discriminate]|].
    injection E as <- <-. split; [cbn; lia|discriminate].
  - destruct (del W (kid child l r) p) as [c er] eqn:Ek. destruct er; [injection E as <- <-; split; [lia|discriminate]|].
    assert (X : node_count (kid child l r) <= node_count c + 2 /\ (c = Nil -> node_count (kid child l r) <= 1)) by (destruct child; [eapply IHr|eapply IHl]; eassumption).
    destruct X as [X1 X2]. destruct (is_nil c && negb a) eqn:Z.
    + apply andb_true_iff in Z. destruct Z as [Z1 Z2]. destruct c; [|discriminate]. destruct a; [discriminate|]. destruct (Ha eq_refl) as [N1 N2].
      specialize (X2 eq_refl). injection E as <- <-. destruct child; cbn [kid negb node_count] in *; (split; [lia|]); intros Q; congruence.
    + injection E as <- <-. pose proof (nc_kid child l r c). cbn [mk node_count]. split; [lia|discriminate].
  - injection E as <- <-; split; [lia|discriminate].
  - injection E as <- <-; split; [lia|discriminate].
Qed.
End Counts.
