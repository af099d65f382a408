(* ConcWait.v - how many instructions a heap program can execute, whatever it
   reads, and what that means for the threads of Conc.v. *)
From Verif Require Export ConcTable ConcSet.
From Coq Require Import Arith Lia.
Local Open Scope nat_scope.

(* at most s instructions, at most a of them allocations *)
Inductive within {T A} : nat -> nat -> prog T A -> Prop :=
| wi_done s a r : within s a (Done r)
| wi_alloc s a n k : (forall l, within s a (k l)) -> within (S s) (S a) (Alloc n k)
| wi_load s a l k : (forall n, within s a (k n)) -> within (S s) a (Load l k)
| wi_store s a l n k : within s a k -> within (S s) a (Store l n k).

Section Within.
Context {T : Type}.
Lemma wi_mono {A} s a s' a' (m : prog T A) : within s a m -> s <= s' -> a <= a' -> within s' a' m.
Proof.
  intros H. revert s' a'. induction H; intros s' a' Hs Ha.
  - constructor.
  - destruct s' as [|s']; [lia|]. destruct a' as [|a']; [lia|]. constructor. intros l. apply H0; lia.
  - destruct s' as [|s']; [lia|]. constructor. intros x. apply H0; lia.
  - destruct s' as [|s']; [lia|]. constructor. apply IHwithin; lia.
Qed.
Lemma wi_pbind {A B} s a s' a' (m : prog T A) (f : A -> prog T B) :
  within s a m -> (forall x, within s' a' (f x)) -> within (s + s') (a + a') (pbind m f).
Proof.
  intros H Hf. induction H; cbn.
  - destruct r; try constructor. eapply wi_mono; eauto; lia.
  - constructor. auto.
  - constructor. auto.
  - constructor. auto.
Qed.
(* spending part of a budget *)
Lemma wi_bind {A B} s a S0 A0 (m : prog T A) (f : A -> prog T B) :
  within s a m -> s <= S0 -> a <= A0 -> (forall x, within (S0 - s) (A0 - a) (f x)) -> within S0 A0 (pbind m f).
Proof. intros H Hs Ha Hf. eapply wi_mono; [eapply wi_pbind; eauto|lia|lia]. Qed.
Lemma wi_ret {A} s a (x : A) : within s a (@ret T A x). Proof. constructor. Qed.
Lemma wi_lift {A} s a (x : res A) : within s a (@lift T A x). Proof. constructor. Qed.
Lemma wi_load1 (p : ptr) : within 1 0 (@load T p).
Proof. destruct p; cbn; repeat constructor. Qed.
Lemma wi_alloc1 (n : hnode T) : within 1 1 (alloc n).
Proof. repeat constructor. Qed.
Lemma wi_store1 l (n : hnode T) : within 1 0 (store l n).
Proof. repeat constructor. Qed.
Lemma wi_modify l f : within 2 0 (@modify T l f).
Proof. cbn. repeat constructor. Qed.
Lemma wi_NumNodes p : within 1 0 (@h_NumNodes T p).
Proof. destruct p; cbn; repeat constructor. Qed.
Lemma wi_height p : within 1 0 (@h_height T p).
Proof. destruct p; cbn; repeat constructor. Qed.
Lemma wi_active p : within 1 0 (@h_active T p).
Proof. destruct p; cbn; repeat constructor. Qed.
End Within.
Ltac wb l := eapply wi_bind; [l|lia|lia|intros ?].
Ltac wprim := first [apply (wi_ret 0 0) | apply (wi_lift 0 0) | apply wi_load1 | apply wi_alloc1 | apply wi_store1 | apply wi_modify | apply wi_NumNodes | apply wi_height | apply wi_active].
(* spend on known instructions, one after the other *)
Ltac w1 := first
  [ apply wi_ret | apply wi_lift
  | solve [eapply wi_mono; [wprim|lia|lia]]
  | eapply wi_bind; [wprim|lia|lia|intros ?] ].

Ltac wif := match goal with |- within _ _ (if ?b then _ else _) => destruct b end.

Section Ops.
Variable W : N.
Context {T : Type}.
Variable ieq : option T -> option T -> res bool.

Lemma wi_mutate s a me (f : nat -> prog T unit) : (forall n, within s a (f n)) -> within (s + 6) a (h_mutate me f).
Proof.
  intros Hf. unfold h_mutate. destruct me as [l|]; [|apply wi_ret].
  eapply wi_bind; [apply Hf|lia|lia|intros _]. repeat w1.
Qed.
Lemma wi_copyMutate s a me (f : nat -> prog T unit) : (forall n, within s a (f n)) -> within (s + 10) (a + 1) (h_copyMutate ieq me f).
Proof.
  intros Hf. unfold h_copyMutate. destruct me as [l|]; [|apply wi_ret]. do 2 w1.
  eapply wi_bind; [apply wi_mutate; apply Hf|lia|lia|intros ?]. repeat w1. wif; w1.
Qed.
Lemma wi_flatten l : within 4 0 (@h_flatten T l).
Proof. unfold h_flatten. repeat (w1 || wif). Qed.
Lemma wi_insert_nil n o : within 8 0 (@h_insert_nil T n o).
Proof.
  unfold h_insert_nil. destruct (negb _); [w1|]. eapply wi_bind; [apply (wi_mutate 2 0); intros; w1|lia|lia|intros]. w1.
Qed.
Lemma wi_insert o : o_flatten o = false -> forall fuel me n, within (14 * fuel + 3) fuel (h_insert W ieq fuel me n o).
Proof.
  intros Ef. induction fuel as [|f IH]; intros me n; cbn [h_insert]; [apply wi_lift|].
  destruct me as [l|]; [|eapply wi_mono; [apply wi_insert_nil|lia|lia]].
  do 2 w1. destruct (compare _ _ _) as [[[result reversed] common] child]. rewrite Ef. destruct result.
  - destruct (_ && _); [w1|]. destruct (_ && _); [w1|].
    eapply wi_bind; [apply (wi_mutate 7 0)|lia|lia|intros; w1].
    intros m. eapply wi_bind with (s := 1) (a := 0); [|lia|lia|intros keep].
    + destruct (hactive _); repeat w1.
    + eapply wi_bind with (s := 2) (a := 0); [|lia|lia|intros _].
      * destruct keep; repeat w1.
      * repeat w1.
  - cbn [andb]. eapply wi_bind; [apply IH|lia|lia|intros [nc [e|]]]; [w1|].
    eapply wi_bind; [apply (wi_copyMutate 2 0); intros; repeat w1|lia|lia|intros; w1].
  - destruct (negb _); [w1|]. eapply wi_bind; [apply (wi_mutate 4 0); intros; repeat w1|lia|lia|intros; w1].
  - eapply wi_bind; [apply wi_insert_nil|lia|lia|intros [nc [e|]]]; [w1|].
    destruct (if xorb child reversed then _ else _) as [xx yy]. w1.
    eapply wi_bind; [apply (wi_mutate 0 0); intros; repeat w1|lia|lia|intros; w1].
Qed.
Notation path := (pathW W).
Lemma wi_Insert me k v : within (14 * path + 4) (path + 1) (h_Insert W ieq me k v).
Proof. unfold h_Insert. w1. eapply wi_mono; [apply wi_insert; reflexivity|lia|lia]. Qed.
Lemma wi_Update me k v eq : within (14 * path + 4) (path + 1) (h_Update W ieq me k v eq).
Proof. unfold h_Update. w1. eapply wi_mono; [apply wi_insert; reflexivity|lia|lia]. Qed.
Lemma wi_InsertOrUpdate me k v eq : within (14 * path + 4) (path + 1) (h_InsertOrUpdate W ieq me k v eq).
Proof. unfold h_InsertOrUpdate. w1. eapply wi_bind; [apply wi_insert; reflexivity|lia|lia|intros [n [e|]]]; w1. Qed.
Lemma wi_goi me k v : within (14 * path + 4) (path + 1) (h_goi_insert W ieq me k v).
Proof. unfold h_goi_insert. w1. eapply wi_bind; [apply wi_insert; reflexivity|lia|lia|intros [n [e|]]]; w1. Qed.
Lemma wi_GetOrInsert fuel : forall me k v, within (13 * fuel + (14 * path + 5)) (fuel + (path + 1)) (h_GetOrInsert W ieq fuel me k v).
Proof.
  induction fuel as [|f IH]; intros me k v; cbn [h_GetOrInsert]; [apply wi_lift|].
  assert (G : forall S0 A0, 14 * path + 4 <= S0 -> path + 1 <= A0 -> within S0 A0 (h_goi_insert W ieq me k v)) by (intros; eapply wi_mono; [apply wi_goi|lia|lia]).
  destruct me as [l|]; [|apply G; lia].
  w1. destruct (_ <? _)%N; [apply G; lia|]. destruct (contains _ _ _) as [[[matches exact] ?] child].
  destruct (negb matches); [apply G; lia|]. destruct (negb exact).
  - eapply wi_bind; [apply IH|lia|lia|intros [nc r]]. eapply wi_bind; [apply (wi_copyMutate 2 0); intros; repeat w1|lia|lia|intros; w1].
  - destruct (negb _); [apply G; lia|w1].
Qed.
Lemma wi_Match fuel : forall me k, within fuel 0 (@h_Match W T fuel me k).
Proof.
  induction fuel as [|f IH]; intros me k; cbn [h_Match]; [apply wi_lift|]. destruct me as [l|]; [|w1]. w1.
  destruct (_ <? _)%N; [w1|]. destruct (contains _ _ _) as [[[matches exact] ?] child]. destruct (negb matches); [w1|].
  eapply wi_bind with (s := f) (a := 0); [|lia|lia|intros b].
  - destruct (negb exact); [apply IH|w1].
  - destruct (negb _); [w1|]. destruct (negb _); w1.
Qed.
Lemma wi_del fuel : forall me k, within (13 * fuel + 2) fuel (h_del W ieq fuel me k).
Proof.
  induction fuel as [|f IH]; intros me k; cbn [h_del]; [apply wi_lift|]. destruct me as [l|]; [|w1]. w1.
  destruct (compare _ _ _) as [[[result ?] ?] child]. destruct result; try w1.
  - destruct (nilp _); [w1|]. destruct (nilp _); [w1|]. eapply wi_bind; [apply (wi_copyMutate 4 0); intros; repeat w1|lia|lia|intros; w1].
  - eapply wi_bind; [apply IH|lia|lia|intros [nc [e|]]]; [w1|]. destruct (_ && _); [w1|].
    eapply wi_bind; [apply (wi_copyMutate 2 0); intros; repeat w1|lia|lia|intros; w1].
Qed.
(* functions that visit both children *)
Fixpoint both_sides (K fuel : nat) : nat := match fuel with O => 0 | S f => K + 2 * both_sides K f end.
Lemma both_sides_pow K fuel : both_sides K fuel + K = K * 2 ^ fuel.
Proof. induction fuel as [|f IH]; cbn [both_sides Nat.pow]; nia. Qed.
Lemma wi_Map {S} (mapper : prefix -> option T -> S -> S * option T) eq fuel : forall me st,
  within (both_sides 16 fuel) (both_sides 1 fuel) (h_Map ieq fuel me mapper eq st).
Proof.
  induction fuel as [|f IH]; intros me st; cbn [h_Map both_sides]; [apply wi_lift|]. destruct me as [l|]; [|w1]. do 2 w1.
  destruct (mapper _ _ _) as [st1 nd]. do 2 w1.
  eapply wi_bind with (s := 2) (a := 0); [|lia|lia|intros _]; [wif; repeat w1|].
  eapply wi_bind; [apply IH|lia|lia|intros [st2 l']]. eapply wi_bind; [apply IH|lia|lia|intros [st3 r']].
  eapply wi_bind; [apply (wi_mutate 2 0); intros; repeat w1|lia|lia|intros]. repeat w1. wif; w1.
Qed.
Lemma wi_Equal eq fuel : forall me other, within (both_sides 2 fuel) 0 (@h_Equal T fuel me other eq).
Proof.
  induction fuel as [|f IH]; intros me other; cbn [h_Equal both_sides]; [apply wi_lift|].
  destruct (ptr_eqb _ _); [w1|]. destruct (nilp _); [w1|]. destruct (nilp _); [w1|]. do 2 w1.
  destruct (negb _); [w1|]. destruct (negb _); [w1|]. eapply wi_bind with (s := 0) (a := 0); [|lia|lia|intros same]; [destruct (hactive _); w1|].
  destruct (negb _); [w1|]. eapply wi_bind; [apply IH|lia|lia|intros e0]. destruct (negb _); [w1|].
  eapply wi_bind; [apply IH|lia|lia|intros e1]. destruct (negb _); w1.
Qed.
Lemma wi_diff {S} (H : hHandler S) eq fuel : forall left right st, within (both_sides 2 fuel) 0 (@h_diff W T S fuel left right H eq st).
Proof.
  induction fuel as [|f IH]; intros left right st; cbn [h_diff both_sides]; [apply wi_lift|].
  destruct (_ && _); [w1|].
  assert (TWO : forall A0 (m1 : prog T (S * bool)) a1 b1 a2 b2,
     within 0 0 m1 -> 2 * both_sides 2 f <= A0 ->
     within A0 0 (pbind m1 (fun '(st1, go) => if negb go then ret (st1, false) else
       pbind (h_diff W f a1 b1 H eq st1) (fun '(st2, go2) => if negb go2 then ret (st2, false) else
       pbind (h_diff W f a2 b2 H eq st2) (fun '(st3, go3) => if negb go3 then ret (st3, false) else ret (st3, true)))))).
  { intros A0 m1 a1 b1 a2 b2 Hm Hle. eapply wi_bind; [apply Hm|lia|lia|intros [st1 go]]. destruct (negb go); [w1|].
    eapply wi_bind; [apply IH|lia|lia|intros [st2 go2]]. destruct (negb go2); [w1|].
    eapply wi_bind; [apply IH|lia|lia|intros [st3 go3]]. destruct (negb go3); w1. }
  assert (R1 : forall n s, within 0 0 (@hi_Removed T S H n s)) by (intros; unfold hi_Removed; destruct (hactive _); w1).
  assert (R2 : forall n s, within 0 0 (@hi_Added T S H n s)) by (intros; unfold hi_Added; destruct (hactive _); w1).
  assert (R3 : forall n n' s, within 0 0 (@hi_Modified T S H eq n n' s)).
  { intros. unfold hi_Modified. destruct (_ && _); [w1; destruct (negb _); [w1|]; destruct (hSame H); w1|]. destruct (hactive _); [w1|]. destruct (hactive _); w1. }
  destruct left as [l|], right as [r|]; try w1.
  - w1. destruct (compare _ _ _) as [[[result ?] ?] child].
    match goal with |- within _ _ (pbind ?m1 _) => assert (Hm : within 0 0 m1) by (destruct result; auto; w1) end.
    eapply wi_bind; [exact Hm|lia|lia|intros [st1 go]]. destruct (negb go); [w1|].
    match goal with |- within _ _ (match ?q with _ => _ end) => destruct q as [[[a1 a2] b1] b2] end.
    eapply wi_bind; [apply IH|lia|lia|intros [st2 go2]]. destruct (negb go2); [w1|].
    eapply wi_bind; [apply IH|lia|lia|intros [st3 go3]]. destruct (negb go3); w1.
  - apply TWO; auto. lia.
  - apply TWO; auto. lia.
Qed.
End Ops.

Section SetOps.
Variable W : N.
Notation fuel := (fuelW W).
Notation path := (pathW W).
Lemma wi_setNodeFromPrefix p : within 1 1 (h_setNodeFromPrefix p).
Proof. unfold h_setNodeFromPrefix. repeat w1. Qed.
Lemma wi_newHead p l r : within 11 1 (h_newHead p l r).
Proof. unfold h_newHead. w1. eapply wi_mono; [apply (wi_mutate 4 0); intros; apply wi_flatten|lia|lia]. Qed.
Lemma wi_union f : forall me other, within (both_sides 14 f) (both_sides 1 f) (h_union W f me other).
Proof.
  induction f as [|f IH]; intros me other; cbn [h_union both_sides]; [apply wi_lift|].
  wif; [w1|]. wif; [w1|]. wif; [w1|]. do 2 w1. destruct (compare _ _ _) as [[[result reversed] common] child].
  assert (NH : forall s a p l r, 11 <= s -> 1 <= a -> within s a (h_newHead p l r)) by (intros; eapply wi_mono; [apply wi_newHead|lia|lia]).
  assert (SUP : within (14 + 2 * both_sides 14 f - 1 - 1) (1 + 2 * both_sides 1 f - 0 - 0)
     (let '(super, sub) := if reversed then (other, me) else (me, other) in
      pbind (load super) (fun s => if hactive s then ret super else
        pbind (if child then pbind (h_union W f (hc1 s) sub) (fun x => ret (hc0 s, x)) else pbind (h_union W f (hc0 s) sub) (fun x => ret (x, hc1 s)))
          (fun '(lft, rgt) => h_newHead (mkPrefix (paddr (hPrefix s)) (plen (hPrefix s))) lft rgt)))).
  { destruct (if reversed then _ else _) as [super sub]. w1. wif; [w1|].
    eapply wi_bind with (s := both_sides 14 f) (a := both_sides 1 f); [|lia|lia|intros [lft rgt]; apply NH; lia].
    destruct child; (eapply wi_bind; [apply IH|lia|lia|intros; w1]). }
  destruct result; auto.
  - wif; [w1|]. wif; [w1|]. eapply wi_bind; [apply IH|lia|lia|intros lft]. eapply wi_bind; [apply IH|lia|lia|intros rgt].
    wif; [w1|]. apply NH; lia.
  - destruct (if xorb child reversed then _ else _) as [lft rgt]. apply NH; lia.
Qed.
Definition union_steps : nat := both_sides 14 fuel.
Definition union_allocs : nat := both_sides 1 fuel.
Lemma wi_Union me other : within union_steps union_allocs (h_Union W me other).
Proof. apply wi_union. Qed.
Opaque union_steps union_allocs.
Lemma wi_from_range f : forall r, within (both_sides (1 + union_steps) f) (both_sides (1 + union_allocs) f) (h_from_range W f r).
Proof.
  induction f as [|f IH]; intros r; cbn [h_from_range both_sides]; [apply wi_lift|]. wif.
  - eapply wi_mono; [apply wi_setNodeFromPrefix|lia|lia].
  - eapply wi_bind; [apply IH|lia|lia|intros x]. eapply wi_bind; [apply IH|lia|lia|intros y]. eapply wi_mono; [apply wi_Union|lia|lia].
Qed.
Lemma wi_halves p : within 2 2 (h_halves W p).
Proof. unfold h_halves. destruct (Halves W p) as [a b]. do 2 (eapply wi_bind; [apply wi_setNodeFromPrefix|lia|lia|intros]). w1. Qed.
Lemma wi_difference f : forall me other, within (both_sides (4 + union_steps) f) (both_sides (2 + union_allocs) f) (h_difference W f me other).
Proof.
  induction f as [|f IH]; intros me other; cbn [h_difference both_sides]; [apply wi_lift|]. wif; [w1|]. do 2 w1.
  destruct (compare _ _ _) as [[[result ?] ?] child].
  assert (UN : forall s a x y, union_steps <= s -> union_allocs <= a -> within s a (h_Union W x y)) by (intros; eapply wi_mono; [apply wi_Union|lia|lia]).
  assert (INA : forall lft0 rgt0 p q, within (4 + union_steps + 2 * both_sides (4 + union_steps) f - 1 - 1) (2 + union_allocs + 2 * both_sides (2 + union_allocs) f - 0 - 0)
     (pbind (h_difference W f lft0 other) (fun lft => pbind (h_difference W f rgt0 other) (fun rgt =>
        if ptr_eqb lft p && ptr_eqb rgt q then ret me else h_Union W lft rgt)))).
  { intros. eapply wi_bind; [apply IH|lia|lia|intros lft]. eapply wi_bind; [apply IH|lia|lia|intros rgt]. wif; [w1|]. apply UN; lia. }
  destruct result.
  - wif; [apply INA|]. wif; [w1|]. eapply wi_bind; [apply wi_halves|lia|lia|intros [hh1 hh2]].
    eapply wi_bind; [apply IH|lia|lia|intros]. eapply wi_bind; [apply IH|lia|lia|intros]. apply UN; lia.
  - wif; [apply INA|]. eapply wi_bind; [apply wi_halves|lia|lia|intros [hh1 hh2]]. eapply wi_bind; [apply IH|lia|lia|intros]. apply UN; lia.
  - wif; [w1|]. eapply wi_mono; [apply IH|lia|lia].
  - w1.
Qed.
Lemma wi_intersect f : forall me other, within (both_sides (2 + union_steps) f) (both_sides union_allocs f) (h_intersect W f me other).
Proof.
  induction f as [|f IH]; intros me other; cbn [h_intersect both_sides]; [apply wi_lift|]. wif; [w1|]. do 2 w1.
  destruct (compare _ _ _) as [[[result reversed] ?] ?].
  assert (UN : forall s a x y, union_steps <= s -> union_allocs <= a -> within s a (h_Union W x y)) by (intros; eapply wi_mono; [apply wi_Union|lia|lia]).
  assert (TWO : forall p q r s, within (2 + union_steps + 2 * both_sides (2 + union_steps) f - 1 - 1) (union_allocs + 2 * both_sides union_allocs f - 0 - 0)
     (pbind (h_intersect W f p q) (fun x => pbind (h_intersect W f r s) (fun y => h_Union W x y)))).
  { intros. eapply wi_bind; [apply IH|lia|lia|intros]. eapply wi_bind; [apply IH|lia|lia|intros]. apply UN; lia. }
  destruct result; try w1; (wif; [apply TWO|]; wif; [apply TWO|]; wif; w1).
Qed.
Lemma wi_NumAddresses f : forall p, within (both_sides 1 f) 0 (h_NumAddresses W f p).
Proof.
  induction f as [|f IH]; intros p; cbn [h_NumAddresses both_sides]; [apply wi_lift|]. wif; [w1|]. w1. wif; [w1|].
  eapply wi_bind; [apply IH|lia|lia|intros]. eapply wi_bind; [apply IH|lia|lia|intros]. w1.
Qed.
Lemma wi_trie_IsEmpty f : forall p, within (both_sides 1 f) 0 (h_trie_IsEmpty f p).
Proof.
  induction f as [|f IH]; intros p; cbn [h_trie_IsEmpty both_sides]; [apply wi_lift|]. wif; [w1|]. w1. wif; [w1|].
  eapply wi_bind; [apply IH|lia|lia|intros]. wif; [eapply wi_mono; [apply IH|lia|lia]|w1].
Qed.
Lemma wi_IsEmpty p : within (both_sides 1 path) 0 (h_IsEmpty W p).
Proof. unfold h_IsEmpty. destruct (W =? 32)%N; [|apply wi_trie_IsEmpty]. eapply wi_bind; [apply wi_NumAddresses|lia|lia|intros]. w1. Qed.
Lemma wi_best s a s' a' x y n : within s a x -> within s' a' y -> within (s + s') (a + a') (h_best x y n).
Proof.
  intros Hx Hy. unfold h_best. eapply wi_bind; [exact Hx|lia|lia|intros [p|]]; [wif; [w1|]|];
    (eapply wi_bind; [exact Hy|lia|lia|intros [q|]]; [try wif; w1|w1]).
Qed.
Lemma wi_findSmallest f : forall p n, within (both_sides 1 f) 0 (h_findSmallest f p n).
Proof.
  induction f as [|f IH]; intros p n; cbn [h_findSmallest both_sides]; [apply wi_lift|]. wif; [w1|]. w1. wif; [w1|]. wif; [w1|].
  eapply wi_bind; [apply wi_best; apply IH|lia|lia|intros [b|]]; [w1|]. wif; w1.
Qed.
Lemma wi_findSmallestR f : forall me r n, within (both_sides (4 + both_sides 1 path) f) (both_sides 2 f) (h_findSmallestR W f me r n).
Proof.
  assert (FS : forall p n s, both_sides 1 path <= s -> forall a, within s a (h_findSmallest path p n)) by (intros; eapply wi_mono; [apply wi_findSmallest|lia|lia]).
  induction f as [|f IH]; intros me r n; cbn [h_findSmallestR]; [apply wi_lift|].
  set (P := both_sides 1 path) in *. set (m := both_sides (4 + P) f) in *. set (b := both_sides 2 f) in *.
  change (both_sides (4 + P) (S f)) with (4 + P + 2 * m). change (both_sides 2 (S f)) with (2 + 2 * b).
  wif; [w1|]. w1. wif; [w1|]. wif; [apply FS; lia|]. w1.
  destruct (compare _ _ _) as [[[result ?] ?] child].
  assert (B2 : forall s a x y, within m b x -> within m b y -> 2 * m <= s -> 2 * b <= a -> within s a (h_best x y n)).
  { intros. eapply wi_mono; [apply wi_best; eassumption|lia|lia]. }
  destruct result.
  - wif; [apply B2; try apply IH; lia|]. wif; [w1|]. eapply wi_bind; [apply wi_halves|lia|lia|intros [u v]]. apply B2; try apply IH; lia.
  - wif; [apply B2; try apply IH; lia|]. eapply wi_bind; [apply wi_halves|lia|lia|intros [u v]].
    eapply wi_mono; [apply wi_best; [apply (FS _ _ P (le_n _) 0)|apply IH]|lia|lia].
  - wif; [w1|]. eapply wi_mono; [apply IH|lia|lia].
  - apply FS; lia.
Qed.
End SetOps.
