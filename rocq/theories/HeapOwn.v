(* HeapOwn.v - ownership: a program stores only to nodes it allocated itself;
   every operation of node.go and setnode.go is such a program. *)
From Verif Require Export Heap.
From Coq Require Import Arith ZifyBool ZifyNat ZifyN.
Local Open Scope prog_scope.

Definition incl_s (P Q : nat -> Prop) : Prop := forall i, P i -> Q i.
Definition plus1 (l : nat) (O : nat -> Prop) : nat -> Prop := fun i => i = l \/ O i.
Definition none : nat -> Prop := fun _ => False.

(* p, run by a thread that owns the addresses O, stores only to O and to the
   addresses it allocates on the way; whatever its loads return *)
Fixpoint owns {T A} (O : nat -> Prop) (p : prog T A) : Prop :=
  match p with
  | Done _ => True
  | Alloc n k => forall l, owns (plus1 l O) (k l)
  | Load l k => forall n, owns O (k n)
  | Store l n k => O l /\ owns O k
  end.

Lemma incl_refl O : incl_s O O. Proof. intros i H. exact H. Qed.
Lemma incl_trans A B C : incl_s A B -> incl_s B C -> incl_s A C. Proof. intros H K i X. auto. Qed.
Lemma incl_plus1 l O : incl_s O (plus1 l O). Proof. intros i H. right. exact H. Qed.
Lemma incl_plus1_mono l O O' : incl_s O O' -> incl_s (plus1 l O) (plus1 l O').
Proof. intros H i [->|X]; [left; reflexivity|right; auto]. Qed.

Lemma owns_mono {T A} (p : prog T A) : forall O O', incl_s O O' -> owns O p -> owns O' p.
Proof.
  induction p; intros O O' I H0; cbn in *; auto.
  - intros l. eapply H; [apply incl_plus1_mono; exact I|apply H0].
  - intros m. eapply H; eauto.
  - destruct H0. split; eauto.
Qed.
(* with a postcondition on the result *)
Fixpoint ownp {T A} (O : nat -> Prop) (p : prog T A) (Q : A -> (nat -> Prop) -> Prop) : Prop :=
  match p with
  | Done (Ok a) => Q a O
  | Done _ => True
  | Alloc n k => forall l, ownp (plus1 l O) (k l) Q
  | Load l k => forall n, ownp O (k n) Q
  | Store l n k => O l /\ ownp O k Q
  end.
Definition any {A} : A -> (nat -> Prop) -> Prop := fun _ _ => True.
Lemma ownp_owns {T A} (p : prog T A) : forall O Q, ownp O p Q -> owns O p.
Proof.
  induction p; intros O Q H0; cbn in *; auto.
  - intros l. eapply H. apply H0.
  - intros m. eapply H. apply H0.
  - destruct H0. split; eauto.
Qed.
Lemma ownp_conseq {T A} (p : prog T A) : forall O (Q R : A -> (nat -> Prop) -> Prop),
  ownp O p Q -> (forall a O', incl_s O O' -> Q a O' -> R a O') -> ownp O p R.
Proof.
  induction p; intros O Q R H0 HR; cbn in *.
  - destruct r; auto. apply HR; auto. apply incl_refl.
  - intros l. eapply H; [apply H0|]. intros a O' I. apply HR. eapply incl_trans; [apply incl_plus1|exact I].
  - intros m. eapply H; [apply H0|]. auto.
  - destruct H0. split; eauto.
Qed.
Lemma ownp_bind {T A B} (p : prog T A) (f : A -> prog T B) : forall O Q R,
  ownp O p Q -> (forall a O', incl_s O O' -> Q a O' -> ownp O' (f a) R) -> ownp O (pbind p f) R.
Proof.
  induction p; intros O Q R H0 HR; cbn in *.
  - destruct r; cbn; auto. apply HR; auto. apply incl_refl.
  - intros l. eapply H; [apply H0|]. intros a O' I. apply HR. eapply incl_trans; [apply incl_plus1|exact I].
  - intros m. eapply H; [apply H0|]. auto.
  - destruct H0. split; eauto.
Qed.
Lemma ownp_bind_any {T A B} (p : prog T A) (f : A -> prog T B) O R :
  ownp O p any -> (forall a O', incl_s O O' -> ownp O' (f a) R) -> ownp O (pbind p f) R.
Proof. intros H K. eapply ownp_bind; [exact H|]. intros a O' I _. auto. Qed.
Lemma ownp_ret {T A} (a : A) O (Q : A -> (nat -> Prop) -> Prop) : Q a O -> ownp O (@ret T A a) Q.
Proof. exact (fun H => H). Qed.
Lemma ownp_ret_any {T A} (a : A) O : ownp O (@ret T A a) any. Proof. exact I. Qed.
Lemma ownp_lift_any {T A} (r : res A) O : ownp O (@lift T A r) any. Proof. destruct r; exact I. Qed.
Lemma ownp_alloc {T} (n : hnode T) O : ownp O (alloc n) (fun l O' => O' l).
Proof. intros l. left. reflexivity. Qed.
Lemma ownp_load {T} (p : ptr) O : ownp O (@load T p) any.
Proof. destruct p; cbn; auto. intros m. exact I. Qed.
Lemma ownp_store {T} l (n : hnode T) (O : nat -> Prop) : O l -> ownp O (store l n) any.
Proof. intros H. split; [exact H|exact I]. Qed.
Lemma ownp_modify {T} l (f : hnode T -> hnode T) (O : nat -> Prop) : O l -> ownp O (modify l f) any.
Proof. intros H n. split; [exact H|exact I]. Qed.

Create HintDb own.
Global Hint Resolve ownp_ret_any ownp_lift_any ownp_load ownp_store ownp_modify : own.
(* solve a goal ownp O p any by going through the program *)
Ltac ostep :=
  match goal with
  | |- ownp _ (match ?x with _ => _ end) _ => destruct x
  | |- ownp _ (if ?x then _ else _) _ => destruct x
  | |- ownp _ (pbind (alloc _) _) _ => eapply ownp_bind; [apply ownp_alloc|]; cbn beta; intros ? ? ? ?
  | |- ownp _ (pbind _ _) _ => apply ownp_bind_any; [|intros ? ? ?]
  | |- ownp _ _ _ => solve [auto with own]
  end.
Ltac osolve := repeat (ostep || (progress cbv zeta)).

Section Own.
Variable W : N.
Context {T : Type}.
Variable ieq : option T -> option T -> res bool.
Implicit Types (O : nat -> Prop) (me p : ptr) (eq : comparator T).

Lemma ownp_NumNodes p O : ownp O (@h_NumNodes T p) any.
Proof. unfold h_NumNodes. osolve. Qed.
Lemma ownp_height p O : ownp O (@h_height T p) any.
Proof. unfold h_height. osolve. Qed.
Lemma ownp_active p O : ownp O (@h_active T p) any.
Proof. unfold h_active. osolve. Qed.
Hint Resolve ownp_NumNodes ownp_height ownp_active : own.
Lemma ownp_mutate l (mut : nat -> prog T unit) O : O l ->
  (forall O', incl_s O O' -> ownp O' (mut l) any) -> ownp O (h_mutate (Some l) mut) any.
Proof.
  intros H K. unfold h_mutate. apply ownp_bind_any; [apply K; apply incl_refl|]. intros _ O1 I1.
  osolve. apply ownp_store. auto 10.
Qed.
Lemma ownp_copyMutate me (mut : nat -> prog T unit) O :
  (forall l O', incl_s O O' -> O' l -> ownp O' (mut l) any) -> ownp O (h_copyMutate ieq me mut) any.
Proof.
  intros K. unfold h_copyMutate. destruct me; [|exact I]. apply ownp_bind_any; [auto with own|]. intros n0 O1 I1.
  eapply ownp_bind; [apply ownp_alloc|]. cbn beta. intros l O2 I2 H2.
  apply ownp_bind_any; [apply ownp_mutate; auto; intros O3 I3; apply K; auto|].
  { intros i X. auto. }
  intros r O3 I3. osolve.
Qed.
Lemma ownp_flatten l O : O l -> ownp O (@h_flatten T l) any.
Proof. intros H. unfold h_flatten. osolve; apply ownp_store; auto 10. Qed.
Hint Resolve ownp_flatten : own.
Ltac own_side := unfold incl_s in *; auto 20 with own.

Lemma ownp_insert_nil node (o : insertOpts) O : O node -> ownp O (@h_insert_nil T node o) any.
Proof. intros H. unfold h_insert_nil. osolve. apply ownp_mutate; auto. intros; apply ownp_modify; auto. Qed.
Lemma ownp_insert fuel : forall me node (o : insertOpts) O, O node -> ownp O (h_insert W ieq fuel me node o) any.
Proof.
  induction fuel; intros me node o O H; cbn [h_insert]; [exact I|].
  destruct me as [l|]; [|apply ownp_insert_nil; auto].
  apply ownp_bind_any; [auto with own|]. intros m O1 I1. apply ownp_bind_any; [auto with own|]. intros nn O2 I2.
  destruct (compare W (hPrefix m) (hPrefix nn)) as [[[result reversed] common] child]. destruct result.
  - osolve. apply ownp_mutate; [auto|]. intros O3 I3. osolve; try (apply ownp_modify; auto 10); own_side.
  - osolve; try (apply IHfuel; auto). apply ownp_copyMutate. intros n O4 I4 H4. osolve; try (apply ownp_modify); own_side.
  - osolve. apply ownp_mutate; [auto|]. intros O3 I3. osolve; try (apply ownp_modify; auto 10); own_side.
  - osolve; try (apply ownp_insert_nil; auto); apply ownp_mutate; auto; intros O5 I5; osolve; own_side.
Qed.
Lemma ownp_Insert me k v O : ownp O (h_Insert W ieq me k v) any.
Proof. eapply ownp_bind; [apply ownp_alloc|]. cbn beta. intros l O' I H. apply ownp_insert. exact H. Qed.
Lemma ownp_Update me k v eq O : ownp O (h_Update W ieq me k v eq) any.
Proof. eapply ownp_bind; [apply ownp_alloc|]. cbn beta. intros l O' I H. apply ownp_insert. exact H. Qed.
Lemma ownp_InsertOrUpdate me k v eq O : ownp O (h_InsertOrUpdate W ieq me k v eq) any.
Proof.
  eapply ownp_bind; [apply ownp_alloc|]. cbn beta. intros l O' I H. apply ownp_bind_any; [apply ownp_insert; exact H|].
  intros a O2 I2. osolve.
Qed.
Lemma ownp_goi me k v O : ownp O (h_goi_insert W ieq me k v) any.
Proof.
  eapply ownp_bind; [apply ownp_alloc|]. cbn beta. intros l O' I H. apply ownp_bind_any; [apply ownp_insert; exact H|].
  intros a O2 I2. osolve.
Qed.
Hint Resolve ownp_goi : own.
Lemma ownp_GetOrInsert fuel : forall me k v O, ownp O (h_GetOrInsert W ieq fuel me k v) any.
Proof.
  induction fuel; intros; cbn [h_GetOrInsert]; [exact I|].
  osolve. destruct (contains W (hPrefix a) k) as [[[? ?] ?] ?]. osolve; auto. apply ownp_copyMutate. intros. apply ownp_modify. auto.
Qed.
Lemma ownp_Match fuel : forall me k O, ownp O (@h_Match W T fuel me k) any.
Proof.
  induction fuel; intros; cbn [h_Match]; [exact I|].
  osolve; auto.
Qed.
Lemma ownp_del fuel : forall me k O, ownp O (h_del W ieq fuel me k) any.
Proof.
  induction fuel; intros; cbn [h_del]; [exact I|]. osolve; auto.
  - apply ownp_copyMutate. intros. osolve; apply ownp_modify; auto.
  - apply ownp_copyMutate. intros. osolve; apply ownp_modify; auto.
Qed.
Lemma ownp_createReturnValue me b d l r eq O : ownp O (h_createReturnValue ieq me b d l r eq) any.
Proof.
  unfold h_createReturnValue. osolve. apply ownp_copyMutate. intros. osolve; try (apply ownp_modify; own_side).
Qed.
Hint Resolve ownp_createReturnValue : own.
Lemma ownp_aggregate fuel : forall me u eq O, ownp O (h_aggregate ieq fuel me u eq) any.
Proof. induction fuel; intros; cbn [h_aggregate]; [exact I|]. osolve; auto. Qed.
Lemma ownp_Map {S} fuel : forall me (mapper : prefix -> option T -> S -> S * option T) eq st O,
  ownp O (h_Map ieq fuel me mapper eq st) any.
Proof.
  induction fuel; intros; cbn [h_Map]; [exact I|]. destruct me; [|exact I].
  apply ownp_bind_any; [auto with own|]. intros m O1 I1.
  eapply ownp_bind; [apply ownp_alloc|]. cbn beta. intros l O2 I2 H2. destruct (mapper _ _ _) as [st1 nd].
  osolve; auto; try (apply ownp_modify; own_side). apply ownp_mutate; [own_side|]. intros; apply ownp_modify; own_side.
Qed.
Lemma ownp_Equal fuel : forall me other eq O, ownp O (@h_Equal T fuel me other eq) any.
Proof. induction fuel; intros; cbn [h_Equal]; [exact I|]. osolve; auto. Qed.
Lemma ownp_diff {S} fuel : forall l r (H : hHandler S) eq st O, ownp O (@h_diff W T S fuel l r H eq st) any.
Proof.
  induction fuel; intros; cbn [h_diff]; [exact I|]. unfold hi_Modified, hi_Removed, hi_Added. osolve; auto.
Qed.
End Own.

Section OwnSet.
Variable W : N.
Implicit Types (O : nat -> Prop) (me : ptr).
Lemma ownp_setNodeFromPrefix p O : ownp O (h_setNodeFromPrefix p) any.
Proof. intros l. exact I. Qed.
Lemma ownp_newHead p l r O : ownp O (h_newHead p l r) any.
Proof.
  eapply ownp_bind; [apply ownp_alloc|]. cbn beta. intros n O' J H. apply ownp_mutate; auto. intros. apply ownp_flatten. auto.
Qed.
Hint Resolve ownp_setNodeFromPrefix ownp_newHead : own.
Lemma ownp_union fuel : forall me other O, ownp O (h_union W fuel me other) any.
Proof. induction fuel; intros; cbn [h_union]; [exact I|]. osolve; auto. Qed.
Lemma ownp_Union me other O : ownp O (h_Union W me other) any.
Proof. apply ownp_union. Qed.
Hint Resolve ownp_Union : own.
Lemma ownp_from_range fuel : forall r O, ownp O (h_from_range W fuel r) any.
Proof. induction fuel; intros; cbn [h_from_range]; [exact I|]. osolve; auto. Qed.
Lemma ownp_halves p O : ownp O (h_halves W p) any.
Proof. unfold h_halves. osolve. Qed.
Hint Resolve ownp_halves : own.
Lemma ownp_difference fuel : forall me other O, ownp O (h_difference W fuel me other) any.
Proof. induction fuel; intros; cbn [h_difference]; [exact I|]. osolve; auto. Qed.
Lemma ownp_intersect fuel : forall me other O, ownp O (h_intersect W fuel me other) any.
Proof. induction fuel; intros; cbn [h_intersect]; [exact I|]. osolve; auto. Qed.
End OwnSet.

(* what ownership means for a run: nothing that existed before is changed *)
Lemma upd_length {T} (h : heap T) l n : length (upd h l n) = length h.
Proof. revert l. induction h as [|x h IH]; intros [|l]; cbn; auto. Qed.
Lemma upd_other {T} (h : heap T) l n i : i <> l -> nth_error (upd h l n) i = nth_error h i.
Proof. revert l i. induction h as [|x h IH]; intros [|l] [|i] H; cbn; auto; try congruence. Qed.
Lemma upd_same {T} (h : heap T) l n : (l < length h)%nat -> nth_error (upd h l n) l = Some n.
Proof. revert l. induction h as [|x h IH]; intros [|l] H; cbn in *; auto; try lia. apply IH. lia. Qed.
Lemma owns_run {T A} (p : prog T A) : forall O (h : heap T), owns O p ->
  (length h <= length (fst (run p h)))%nat /\
  forall i, (i < length h)%nat -> ~ O i -> nth_error (fst (run p h)) i = nth_error h i.
Proof.
  induction p; intros O h0 H0; cbn [run owns] in *.
  - cbn. auto.
  - destruct (H (length h0) (plus1 (length h0) O) (h0 ++ [n]) (H0 _)) as [A1 A2]. rewrite app_length in *. cbn in *.
    split; [lia|]. intros i Hi Oi. rewrite A2; [|lia|].
    + apply nth_error_app1. exact Hi.
    + intros [->|X]; [lia|auto].
  - destruct (nth_error h0 l) as [x|]; [|cbn; auto]. apply (H x O h0). apply H0.
  - destruct H0 as [Hl H0]. destruct (IHp O (upd h0 l n) H0) as [A1 A2]. rewrite upd_length in *. split; [lia|].
    intros i Hi Oi. rewrite A2 by auto. apply upd_other. intros ->. auto.
Qed.
