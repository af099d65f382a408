(* HeapCost.v - what a heap program costs when it runs: instructions executed and
   node_count allocated. *)
From Verif Require Export ConcWait PropsHeap.
From Verif Require Import SetProof.
From Coq Require Import Arith Lia ZifyBool ZifyNat ZifyN.
Local Open Scope nat_scope.

Section Cost.
Context {T : Type}.
(* the loads, stores and allocations [Heap.run] executes *)
Fixpoint instructions {A} (m : prog T A) (h : heap T) : nat :=
  match m with
  | Done _ => 0
  | Alloc n k => S (instructions (k (length h)) (h ++ [n]))
  | Load l k => match nth_error h l with Some n => S (instructions (k n) h) | None => 1 end
  | Store l n k => S (instructions k (Heap.upd h l n))
  end.
(* the nodes it allocates *)
Definition allocated {A} (m : prog T A) (h : heap T) : nat := length (fst (run m h)) - length h.

Definition atmost (s a : nat) {A} (m : prog T A) (h : heap T) : Prop :=
  instructions m h <= s /\ length (fst (run m h)) <= length h + a.
Lemma atmost_allocated {A} s a (m : prog T A) h : atmost s a m h -> instructions m h <= s /\ allocated m h <= a.
Proof. intros [H K]. unfold allocated. split; [auto|lia]. Qed.
Lemma within_atmost {A} s a (m : prog T A) : within s a m -> forall h, atmost s a m h.
Proof.
  unfold atmost. induction 1; intros h; cbn [instructions run fst].
  - lia.
  - destruct (H0 (length h) (h ++ [n])) as [A1 A2]. rewrite app_length in A2. cbn [length] in A2. lia.
  - destruct (nth_error h l); [|cbn; lia]. destruct (H0 h0 h) as [A1 A2]. lia.
  - destruct (IHwithin (Heap.upd h l n)) as [A1 A2]. rewrite upd_length in A2. lia.
Qed.
Lemma run_pbind {A B} (m : prog T A) (f : A -> prog T B) : forall h,
  run (pbind m f) h = match snd (run m h) with Ok a => run (f a) (fst (run m h)) | Panic => (fst (run m h), Panic) | OutOfFuel => (fst (run m h), OutOfFuel) end.
Proof.
  induction m as [r|n k IH|l k IH|l n k IH]; intros h; cbn [pbind run].
  - destruct r; reflexivity.
  - apply IH.
  - destruct (nth_error h l); [apply IH|reflexivity].
  - apply IH.
Qed.
Lemma run_load {B} h i n (f : hnode T -> prog T B) : nth_error h i = Some n -> run (pbind (load (Some i)) f) h = run (f n) h.
Proof. intros E. cbn. rewrite E. reflexivity. Qed.
Lemma instr_pbind {A B} (m : prog T A) (f : A -> prog T B) : forall h,
  instructions (pbind m f) h = instructions m h + match snd (run m h) with Ok a => instructions (f a) (fst (run m h)) | _ => 0 end.
Proof.
  induction m as [r|n k IH|l k IH|l n k IH]; intros h; cbn [pbind run instructions].
  - destruct r; reflexivity.
  - rewrite IH. reflexivity.
  - destruct (nth_error h l); [rewrite IH; reflexivity|cbn; lia].
  - rewrite IH. reflexivity.
Qed.
Lemma am_bind {A B} s a S0 A0 (m : prog T A) (f : A -> prog T B) h :
  atmost s a m h -> s <= S0 -> a <= A0 ->
  (forall x, snd (run m h) = Ok x -> atmost (S0 - s) (A0 - a) (f x) (fst (run m h))) -> atmost S0 A0 (pbind m f) h.
Proof.
  intros [H1 H2] Hs Ha Hf. unfold atmost. rewrite instr_pbind, run_pbind.
  destruct (snd (run m h)) as [x| |] eqn:E.
  - destruct (Hf x eq_refl) as [K1 K2]. lia.
  - cbn [fst]. lia.
  - cbn [fst]. lia.
Qed.
Lemma am_mono {A} s a s' a' (m : prog T A) h : atmost s a m h -> s <= s' -> a <= a' -> atmost s' a' m h.
Proof. unfold atmost. lia. Qed.
Lemma am_ret {A} s a (x : A) h : atmost s a (@ret T A x) h.
Proof. unfold atmost. cbn. lia. Qed.
Lemma am_lift {A} s a (x : res A) h : atmost s a (@lift T A x) h.
Proof. unfold atmost. cbn. lia. Qed.
Lemma am_load {B} s a i n (f : hnode T -> prog T B) h : nth_error h i = Some n -> 1 <= s -> atmost (s - 1) a (f n) h -> atmost s a (pbind (load (Some i)) f) h.
Proof. intros E Hs [H1 H2]. unfold atmost. cbn. rewrite E. cbn. split; [lia|exact H2]. Qed.
(* what a subprogram that owns nothing leaves alone *)
Lemma run_keeps {A} (m : prog T A) h : owns none m -> length h <= length (fst (run m h)) /\ (forall i, i < length h -> nth_error (fst (run m h)) i = nth_error h i) /\
  (forall p t, denotes h p t -> denotes (fst (run m h)) p t).
Proof.
  intros H. destruct (owns_run m none h H) as [L K]. assert (K' : forall i, i < length h -> nth_error (fst (run m h)) i = nth_error h i) by (intros; apply K; auto).
  repeat split; auto. intros p t. apply denotes_grow. exact K'.
Qed.
End Cost.

Fixpoint node_count {T} (t : trie T) : nat := match t with Nil => 0 | Node _ _ _ _ _ l r => S (node_count l + node_count r) end.
Lemma nodes_entries W {T} k (t : trie T) : wf W k t -> t <> Nil -> node_count t < 2 * length (entries t).
Proof.
  revert k. induction t as [|p d s h a l IHl r IHr]; intros k H Nn; [congruence|]. cbn [wf node_count entries] in *.
  destruct H as (_ & _ & _ & _ & Ha & Hl & Hr). rewrite !app_length.
  assert (Bl : node_count l <= 2 * length (entries l)) by (destruct l; [cbn; lia|]; specialize (IHl _ Hl ltac:(congruence)); lia).
  assert (Br : node_count r <= 2 * length (entries r)) by (destruct r; [cbn; lia|]; specialize (IHr _ Hr ltac:(congruence)); lia).
  destruct a; cbn [length]; [lia|]. destruct (Ha eq_refl) as [N1 N2]. specialize (IHl _ Hl N1). specialize (IHr _ Hr N2). lia.
Qed.

(* ---- walks ---- *)
Section Walks.
Variable W : N.
Context {T : Type}.
Lemma reads_heap {A} s (m : prog T A) : within s 0 m -> owns none m -> forall h, length (fst (run m h)) = length h.
Proof. intros H O h. destruct (within_atmost _ _ _ H h) as [_ A1]. destruct (run_keeps m h O) as [A2 _]. lia. Qed.
Lemma den_node (h : heap T) p pr d s hh a l r : denotes h p (Node pr d s hh a l r) ->
  exists i c0 c1, p = Some i /\ nth_error h i = Some (mkH pr d s hh a c0 c1) /\ denotes h c0 l /\ denotes h c1 r.
Proof. intros (i & c0 & c1 & -> & _ & E & H0 & H1). exists i, c0, c1. auto. Qed.
(* the number of loads of diff *)
Definition weight (l r : trie T) : nat := match l, r with Nil, _ => node_count r | _, Nil => node_count l | _, _ => 3 * (node_count l + node_count r) end.
Lemma weight_le l r : weight l r <= 3 * (node_count l + node_count r).
Proof. unfold weight. destruct l, r; cbn [node_count]; lia. Qed.
Lemma am_reads_bind {A B} s S0 (m : prog T A) (f : A -> prog T B) h : (fst (run m h) = h) ->
  atmost s 0 m h -> s <= S0 -> (forall x, atmost (S0 - s) 0 (f x) h) -> atmost S0 0 (pbind m f) h.
Proof. intros E H Hs K. eapply am_bind; [exact H|exact Hs|lia|]. intros x _. rewrite E. apply K. Qed.

(* programs that only read *)
Fixpoint readonly {A} (m : prog T A) : Prop := match m with Done _ => True | Load _ k => forall n, readonly (k n) | _ => False end.
Lemma ro_run {A} (m : prog T A) : readonly m -> forall h, fst (run m h) = h.
Proof.
  induction m as [r|n k IH|l k IH|l n k IH]; intros H h; cbn in *; try contradiction; auto. destruct (nth_error h l); [apply IH; auto|reflexivity].
Qed.
Lemma ro_bind {A B} (m : prog T A) (f : A -> prog T B) : readonly m -> (forall x, readonly (f x)) -> readonly (pbind m f).
Proof.
  induction m as [r|n k IH|l k IH|l n k IH]; intros H Hf; cbn in *; try contradiction; auto. destruct r; cbn; auto.
Qed.
Lemma ro_ret {A} (x : A) : readonly (@ret T A x). Proof. exact I. Qed.
Lemma ro_lift {A} (x : res A) : readonly (@lift T A x). Proof. exact I. Qed.
Lemma ro_load p : readonly (@load T p). Proof. destruct p; cbn; auto. Qed.
Lemma ro_removed {S} (H : hHandler S) n st : readonly (@hi_Removed T S H n st). Proof. unfold hi_Removed. destruct (hactive n); exact I. Qed.
Lemma ro_added {S} (H : hHandler S) n st : readonly (@hi_Added T S H n st). Proof. unfold hi_Added. destruct (hactive n); exact I. Qed.
Lemma ro_modified {S} (H : hHandler S) eq n n' st : readonly (@hi_Modified T S H eq n n' st).
Proof.
  unfold hi_Modified. destruct (_ && _).
  - apply ro_bind; [exact I|]. intros e. destruct (negb e); [exact I|]. destruct (hSame H); exact I.
  - destruct (hactive n); [exact I|]. destruct (hactive n'); exact I.
Qed.
Lemma ro_diff {S} (H : hHandler S) eq : forall fuel l r st, readonly (@h_diff W T S fuel l r H eq st).
Proof.
  induction fuel as [|f IH]; intros l r st; cbn [h_diff]; [exact I|]. destruct (_ && _); [exact I|].
  assert (TL : forall (m : prog T (S * bool)) a1 b1 a2 b2, readonly m ->
     readonly (pbind m (fun '(st1, go) => if negb go then ret (st1, false) else
       pbind (h_diff W f a1 b1 H eq st1) (fun '(st2, go2) => if negb go2 then ret (st2, false) else
       pbind (h_diff W f a2 b2 H eq st2) (fun '(st3, go3) => if negb go3 then ret (st3, false) else ret (st3, true)))))).
  { intros m a1 b1 a2 b2 Hm. apply ro_bind; auto. intros [s1 g1]. destruct (negb g1); [exact I|].
    apply ro_bind; auto. intros [s2 g2]. destruct (negb g2); [exact I|]. apply ro_bind; auto. intros [s3 g3]. destruct (negb g3); exact I. }
  destruct l as [i|], r as [j|]; try exact I.
  - apply ro_bind; [apply ro_load|intros n]. apply ro_bind; [apply ro_load|intros n'].
    destruct (compare _ _ _) as [[[result ?] ?] child].
    match goal with |- readonly (pbind ?m1 _) => assert (Hm : readonly m1) by (destruct result; auto using ro_removed, ro_added, ro_modified; exact I) end.
    apply ro_bind; auto. intros [s1 g1]. destruct (negb g1); [exact I|].
    match goal with |- readonly (match ?q with _ => _ end) => destruct q as [[[a1 a2] b1] b2] end.
    apply ro_bind; auto. intros [s2 g2]. destruct (negb g2); [exact I|]. apply ro_bind; auto. intros [s3 g3]. destruct (negb g3); exact I.
  - apply ro_bind; [apply ro_load|intros n]. apply TL. apply ro_removed.
  - apply ro_bind; [apply ro_load|intros n]. apply TL. apply ro_added.
Qed.
Lemma cost_diff {S} (H : hHandler S) eq h : forall fuel l r pl pr st, denotes h pl l -> denotes h pr r ->
  atmost (weight l r) 0 (@h_diff W T S fuel pl pr H eq st) h.
Proof.
  assert (Z1 : forall n s s0, atmost s0 0 (@hi_Removed T S H n s) h) by (intros; unfold hi_Removed; destruct (hactive _); apply am_ret).
  assert (Z2 : forall n s s0, atmost s0 0 (@hi_Added T S H n s) h) by (intros; unfold hi_Added; destruct (hactive _); apply am_ret).
  assert (Z3 : forall n n' s s0, atmost s0 0 (@hi_Modified T S H eq n n' s) h).
  { intros. eapply am_mono; [apply (within_atmost 0 0)|lia|lia]. unfold hi_Modified.
    destruct (_ && _); [w1; destruct (negb _); [w1|]; destruct (hSame H); w1|]. destruct (hactive _); [w1|]. destruct (hactive _); w1. }
  induction fuel as [|f IH]; intros l r pl pr st Dl Dr; cbn [h_diff]; [apply am_lift|]. destruct (_ && _); [apply am_ret|].
  assert (TL : forall s0 (m : prog T (S * bool)) l0 r0 l1 r1 a1 b1 a2 b2, readonly m -> atmost 0 0 m h ->
     denotes h a1 l0 -> denotes h b1 r0 -> denotes h a2 l1 -> denotes h b2 r1 -> weight l0 r0 + weight l1 r1 <= s0 ->
     atmost s0 0 (pbind m (fun '(st1, go) => if negb go then ret (st1, false) else
       pbind (h_diff W f a1 b1 H eq st1) (fun '(st2, go2) => if negb go2 then ret (st2, false) else
       pbind (h_diff W f a2 b2 H eq st2) (fun '(st3, go3) => if negb go3 then ret (st3, false) else ret (st3, true))))) h).
  { intros s0 m l0 r0 l1 r1 a1 b1 a2 b2 Ro Hm D1 D2 D3 D4 Hs. eapply am_reads_bind; [apply ro_run, Ro|exact Hm|lia|]. intros [s1 g1]. destruct (negb g1); [apply am_ret|].
    eapply am_reads_bind; [apply ro_run, ro_diff|apply IH; eassumption|lia|]. intros [s2 g2]. destruct (negb g2); [apply am_ret|].
    eapply am_reads_bind; [apply ro_run, ro_diff|apply IH; eassumption|lia|]. intros [s3 g3]. destruct (negb g3); apply am_ret. }
  destruct l as [|lp ld ls lh la ll lr]; destruct r as [|rp rd rs rh ra rl rr].
  - cbn in Dl, Dr. subst. apply am_ret.
  - cbn in Dl. subst pl. destruct (den_node _ _ _ _ _ _ _ _ _ Dr) as (j & d0 & d1 & -> & Ej & R0 & R1).
    eapply am_load; [exact Ej|cbn; lia|]. apply (TL _ _ Nil rl Nil rr); auto using ro_added; try reflexivity. cbn. lia.
  - cbn in Dr. subst pr. destruct (den_node _ _ _ _ _ _ _ _ _ Dl) as (i & c0 & c1 & -> & Ei & L0 & L1).
    eapply am_load; [exact Ei|cbn; lia|]. apply (TL _ _ ll Nil lr Nil); auto using ro_removed; try reflexivity. cbn. destruct ll, lr; cbn; lia.
  - destruct (den_node _ _ _ _ _ _ _ _ _ Dl) as (i & c0 & c1 & -> & Ei & L0 & L1). destruct (den_node _ _ _ _ _ _ _ _ _ Dr) as (j & d0 & d1 & -> & Ej & R0 & R1).
    eapply am_load; [exact Ei|cbn; lia|]. eapply am_load; [exact Ej|cbn; lia|]. cbn [hPrefix hc0 hc1].
    assert (N0 : denotes h None (@Nil T)) by reflexivity.
    destruct (compare W lp rp) as [[[result ?] ?] child].
    pose proof (weight_le ll rl) as W1. pose proof (weight_le lr rr) as W2.
    set (X := Node lp ld ls lh la ll lr) in *. set (Y := Node rp rd rs rh ra rl rr) in *.
    assert (EX : node_count X = Datatypes.S (node_count ll + node_count lr)) by reflexivity. assert (EY : node_count Y = Datatypes.S (node_count rl + node_count rr)) by reflexivity.
    assert (WX : weight X Y = 3 * (node_count X + node_count Y)) by reflexivity. rewrite WX.
    pose proof (weight_le X rl) as W3. pose proof (weight_le X rr) as W4. pose proof (weight_le ll Y) as W5. pose proof (weight_le lr Y) as W6.
    assert (W7 : forall t : trie T, weight t Nil = node_count t) by (intros []; reflexivity). assert (W8 : forall t : trie T, weight Nil t = node_count t) by reflexivity.
    destruct result.
    + apply (TL _ _ ll rl lr rr); auto using ro_modified. lia.
    + destruct child; [apply (TL _ _ ll Nil lr Y)|apply (TL _ _ ll Y lr Nil)]; auto using ro_removed; rewrite ?W7; lia.
    + destruct child; [apply (TL _ _ Nil rl X rr)|apply (TL _ _ X rl Nil rr)]; auto using ro_added; rewrite ?W8; lia.
    + destruct child; [apply (TL _ _ X Nil Nil Y)|apply (TL _ _ Nil Y X Nil)]; auto using am_ret, ro_ret; try exact I; rewrite W7, W8; lia.
Qed.
End Walks.

(* ---- sets ---- *)
Section SetCost.
Variable W : N.
Hypothesis HW : (0 < W /\ W < 2 ^ 15)%N.
Notation key := (key W).
Notation swf := (swf W).
Notation room := (room W).
Notation np := (@nop unit).
Notation heap := (heap unit).
Implicit Types (h : heap).
Let NSn : forall a b : snode, np a b = true -> a = b. Proof. discriminate. Qed.

Lemma own_union f me other : owns none (h_union W f me other).
Proof. eapply ownp_owns. apply ownp_union. Qed.
Lemma own_difference f me other : owns none (h_difference W f me other).
Proof. eapply ownp_owns. apply ownp_difference. Qed.
Lemma am_newHead s a p l r h : 11 <= s -> 1 <= a -> atmost s a (h_newHead p l r) h.
Proof. intros. eapply am_mono; [apply within_atmost, wi_newHead|auto|auto]. Qed.
(* adding a prefix: one path *)
Lemma cost_union_active : forall f k me pm q n h, denotes h pm me -> swf k me -> nth_error h q = Some n -> hactive n = true ->
  atmost (14 * room me) (room me) (h_union W f pm (Some q)) h.
Proof.
  induction f as [|f IH]; intros k me pm q n h Dm Hm Eq An; cbn [h_union]; [apply am_lift|].
  destruct (ptr_eqb _ _); [apply am_ret|]. cbn [nilp].
  destruct me as [|mp md ms mh ma ml mr]; [cbn in Dm; subst; apply am_ret|].
  destruct (den_node _ _ _ _ _ _ _ _ _ Dm) as (i & e0 & e1 & -> & Ei & M0 & M1). cbn [nilp].
  pose proof (rk W HW _ _ _ _ _ _ _ _ false Hm) as R1. pose proof (rk W HW _ _ _ _ _ _ _ _ true Hm) as R2. cbn [kid] in R1, R2.
  pose proof (swf_l W _ _ _ _ _ _ _ _ Hm) as Hml. pose proof (swf_r W _ _ _ _ _ _ _ _ Hm) as Hmr.
  set (me := Node mp md ms mh ma ml mr) in *. set (m := mkH mp md ms mh ma e0 e1) in *.
  eapply am_load; [exact Ei|lia|]. eapply am_load; [exact Eq|lia|].
  destruct (compare _ _ _) as [[[result reversed] common] child].
  assert (SUP : atmost (14 * room me - 1 - 1) (room me)
     (let '(super, sub) := if reversed then (Some q, Some i) else (Some i, Some q) in
      pbind (load super) (fun s => if hactive s then ret super else
        pbind (if child then pbind (h_union W f (hc1 s) sub) (fun x => ret (hc0 s, x)) else pbind (h_union W f (hc0 s) sub) (fun x => ret (x, hc1 s)))
          (fun '(lft, rgt) => h_newHead (mkPrefix (paddr (hPrefix s)) (plen (hPrefix s))) lft rgt))) h).
  { destruct reversed.
    - eapply am_load; [exact Eq|lia|]. rewrite An. apply am_ret.
    - eapply am_load; [exact Ei|lia|]. destruct (hactive m); [apply am_ret|].
      eapply am_bind with (s := 14 * (room me - 1)) (a := room me - 1); [|lia|lia|intros [lft rgt] _; apply am_newHead; lia].
      destruct child; [eapply am_bind; [eapply (IH _ mr); eassumption|lia|lia|intros; apply am_ret]|eapply am_bind; [eapply (IH _ ml); eassumption|lia|lia|intros; apply am_ret]]. }
  destruct result; auto.
  - destruct (hactive m); [apply am_ret|]. rewrite An. apply am_ret.
  - destruct (if xorb child reversed then _ else _) as [lft rgt]. apply am_newHead; lia.
Qed.
(* joining two sets that lie in different halves: one node *)
Lemma cost_union_sides h q c pl pr lft rgt s a : denotes h pl lft -> denotes h pr rgt -> swf (q ++ [c]) lft -> swf (q ++ [negb c]) rgt ->
  13 <= s -> 1 <= a -> atmost s a (h_Union W pl pr) h.
Proof.
  intros Dl Dr Hl Hr Hs Ha. unfold h_Union. assert (FU : exists n, fuelW W = S n) by (exists (pred (fuelW W)); unfold fuelW; lia).
  destruct FU as [n ->]. cbn [h_union]. destruct (ptr_eqb _ _); [apply am_ret|].
  destruct rgt as [|rp rd rs rh ra rl rr]; [cbn in Dr; subst; apply am_ret|].
  destruct lft as [|lp ld ls lh la ll lr]; [cbn in Dl; subst; destruct pr; apply am_ret|].
  destruct (den_node _ _ _ _ _ _ _ _ _ Dl) as (i & c0 & c1 & -> & Ei & L0 & L1). destruct (den_node _ _ _ _ _ _ _ _ _ Dr) as (j & d0 & d1 & -> & Ej & R0 & R1).
  cbn [nilp]. eapply am_load; [exact Ei|lia|]. eapply am_load; [exact Ej|lia|]. cbn [hPrefix].
  pose proof (swf_prefix W _ _ _ _ _ _ _ _ Hl) as Pl. pose proof (swf_prefix W _ _ _ _ _ _ _ _ Hr) as Pr.
  pose proof (swf_pre W _ _ _ _ _ _ _ _ Hl) as Kl. pose proof (swf_pre W _ _ _ _ _ _ _ _ Hr) as Kr.
  pose proof (Key.compare_spec W HW lp rp Pl Pr) as C.
  destruct C as [E0|e x E0|e x E0|q' e xa xb rev E1 E2 Er]; cbn beta iota zeta.
  - exfalso. rewrite E0 in Kl. pose proof (pre_snoc_inj _ _ _ _ Kl Kr). destruct c; discriminate.
  - exfalso. rewrite E0 in Kr. assert (Q : pre (q ++ [c]) (key lp ++ e :: x)) by (eapply pre_trans; [exact Kl|apply pre_app_r]).
    pose proof (pre_snoc_inj _ _ _ _ Q Kr). destruct c; discriminate.
  - exfalso. rewrite E0 in Kl. assert (Q : pre (q ++ [negb c]) (key rp ++ e :: x)) by (eapply pre_trans; [exact Kr|apply pre_app_r]).
    pose proof (pre_snoc_inj _ _ _ _ Q Kl). destruct c; discriminate.
  - destruct (if xorb _ rev then _ else _) as [x y]. apply am_newHead; lia.
Qed.
(* the children away from the removed prefix, or inside it, are not entered *)
Lemma cost_diff_short f h pm me j p k : denotes h pm me -> denotes h (Some j) (setNodeFromPrefix p) -> wf_prefix W p -> swf k me ->
  (exists b, pre (key p ++ [b]) k) \/ (exists q b x, key p = q ++ b :: x /\ pre (q ++ [negb b]) k) ->
  atmost 2 0 (h_difference W f pm (Some j)) h.
Proof.
  intros Dm Dj Wp Hm Hk. destruct f as [|f]; cbn [h_difference]; [apply am_lift|].
  destruct me as [|mp md ms mh ma ml mr]; [cbn in Dm; subst; apply am_ret|].
  destruct (den_node _ _ _ _ _ _ _ _ _ Dm) as (i & e0 & e1 & -> & Ei & M0 & M1). cbn [nilp orb].
  destruct (den_node _ _ _ _ _ _ _ _ _ Dj) as (j' & d0 & d1 & [= <-] & Ej & _ & _).
  eapply am_load; [exact Ei|lia|]. eapply am_load; [exact Ej|lia|]. cbn [hPrefix hactive].
  pose proof (swf_prefix W _ _ _ _ _ _ _ _ Hm) as Pm. pose proof (swf_pre W _ _ _ _ _ _ _ _ Hm) as Km.
  assert (ND : (exists r, key p = key mp ++ r) -> False).
  { intros [r E]. destruct Hk as [(b & Hk)|(q & b & x & E1 & Hk)].
    - assert (Q : pre (key p ++ [b]) (key mp)) by (eapply pre_trans; eauto). destruct Q as [u Q]. apply (f_equal (@length bool)) in Q. apply (f_equal (@length bool)) in E.
      rewrite !app_length in *. cbn in Q. lia.
    - assert (Q : pre (q ++ [negb b]) (key mp)) by (eapply pre_trans; eauto). assert (Q' : pre (q ++ [b]) (key p)) by (rewrite E1; exists x; rewrite <- app_assoc; reflexivity).
      assert (Q'' : pre (q ++ [negb b]) (key p)) by (eapply pre_trans; [exact Q|exists r; exact E]). pose proof (pre_snoc_inj _ _ _ _ Q' Q''). destruct b; discriminate. }
  pose proof (Key.compare_spec W HW mp p Pm Wp) as C.
  destruct C as [E0|e x E0|e x E0|q' e xa xb rev E1 E2 Er]; cbn beta iota zeta; try apply am_ret; exfalso; apply ND; [exists []; rewrite app_nil_r; auto|exists (e :: x); exact E0].
Qed.
Lemma run_difference f k h pm me pq other : denotes h pm me -> denotes h pq other -> swf k me -> swf [] other -> room me + room other < f ->
  exists x, denotes (fst (run (h_difference W f pm pq) h)) x (match difference W np f me other with Ok t => t | _ => Nil end) /\
    snd (run (h_difference W f pm pq) h) = Ok x /\ swf k (match difference W np f me other with Ok t => t | _ => Nil end).
Proof.
  intros Dm Do Hm Ho F. pose proof (wpi_difference W HW f k me other pm pq _ h (dom_all h) (denotes_dom _ _ _ Dm) (denotes_dom _ _ _ Do) Hm Ho F) as H.
  apply run_rel in H. destruct H as (S' & H). destruct (difference_ok W HW np NSn f k me other F Hm Ho) as (t & E & St & _). rewrite E in *.
  destruct (snd (run (h_difference W f pm pq) h)) as [x| |]; try contradiction. exists x. cbn in H. repeat split; auto; try apply St. eapply repr_denotes; exact H.
Qed.
Lemma leaf_room p : room (setNodeFromPrefix p) = S (N.to_nat W - N.to_nat (plen p)). Proof. reflexivity. Qed.
(* taking a prefix away: one path, at most three nodes for each level *)
Lemma cost_difference : forall f k me pm j p h, denotes h pm me -> denotes h (Some j) (setNodeFromPrefix p) -> wf_prefix W p -> swf k me ->
  room me + room (setNodeFromPrefix p) < f -> atmost (19 * room me) (3 * room me) (h_difference W f pm (Some j)) h.
Proof.
  induction f as [|f IH]; intros k me pm j p h Dm Dj Wp Hm F; [lia|]. cbn [h_difference].
  destruct me as [|mp md ms mh ma ml mr]; [cbn in Dm; subst; apply am_ret|].
  destruct (den_node _ _ _ _ _ _ _ _ _ Dm) as (i & e0 & e1 & -> & Ei & M0 & M1). cbn [nilp orb].
  pose proof Dj as Dj'. destruct (den_node _ _ _ _ _ _ _ _ _ Dj') as (j' & d0 & d1 & [= <-] & Ej & _ & _).
  set (me := Node mp md ms mh ma ml mr) in *. assert (RM : 1 <= room me) by (cbn; lia).
  eapply am_load; [exact Ei|lia|]. eapply am_load; [exact Ej|lia|]. cbn [hPrefix hactive hc0 hc1].
  pose proof (swf_prefix W _ _ _ _ _ _ _ _ Hm) as Pm. pose proof (swf_pre W _ _ _ _ _ _ _ _ Hm) as Km.
  assert (Ho : swf [] (setNodeFromPrefix p)) by (apply swf_leaf; auto; apply pre_nil).
  pose proof (Key.compare_spec W HW mp p Pm Wp) as C.
  (* both children, one of which is not entered *)
  assert (INACT : forall sl al sr ar, ma = false -> atmost sl al (h_difference W f e0 (Some j)) h ->
     (forall h', denotes h' e1 mr -> denotes h' (Some j) (setNodeFromPrefix p) -> atmost sr ar (h_difference W f e1 (Some j)) h') ->
     sl + sr + 17 <= 19 * room me + 2 -> al + ar + 1 <= 3 * room me ->
     atmost (19 * room me - 1 - 1) (3 * room me) (pbind (h_difference W f e0 (Some j)) (fun lft => pbind (h_difference W f e1 (Some j)) (fun rgt =>
        if ptr_eqb lft e0 && ptr_eqb rgt e1 then ret (Some i) else h_Union W lft rgt))) h).
  { intros sl al sr ar -> AL AR B1 B2. pose proof (swf_l W _ _ _ _ _ _ _ _ Hm) as Hml. pose proof (swf_r W _ _ _ _ _ _ _ _ Hm) as Hmr.
    pose proof (rk W HW _ _ _ _ _ _ _ _ false Hm) as R1. pose proof (rk W HW _ _ _ _ _ _ _ _ true Hm) as R2. cbn [kid] in R1, R2. fold me in R1, R2.
    destruct (run_difference f _ h e0 ml (Some j) _ M0 Dj Hml Ho ltac:(lia)) as (x & Dx & Ex & Sx).
    destruct (run_keeps _ h (own_difference f e0 (Some j))) as (_ & _ & K1).
    eapply am_bind; [exact AL|lia|lia|]. intros x' Ex'. rewrite Ex in Ex'. injection Ex' as <-. set (h1 := fst (run _ h)) in *.
    destruct (run_difference f _ h1 e1 mr (Some j) _ (K1 _ _ M1) (K1 _ _ Dj) Hmr Ho ltac:(lia)) as (y & Dy & Ey & Sy).
    destruct (run_keeps _ h1 (own_difference f e1 (Some j))) as (_ & _ & K2).
    eapply am_bind; [apply AR; auto|lia|lia|]. intros y' Ey'. rewrite Ey in Ey'. injection Ey' as <-. set (h2 := fst (run _ h1)) in *.
    destruct (_ && _); [apply am_ret|]. eapply (cost_union_sides h2 (key mp) false); [apply K2; exact Dx|exact Dy|exact Sx|exact Sy|lia|lia]. }
  destruct C as [E0|c x E0|c x E0|q' c xa xb rev E1 E2 Er]; cbn beta iota zeta; try apply am_ret.
  - (* same *)
    destruct ma; cbn [negb]; [apply am_ret|]. pose proof (swf_l W _ _ _ _ _ _ _ _ Hm) as Hml. pose proof (swf_r W _ _ _ _ _ _ _ _ Hm) as Hmr.
    apply (INACT 2 0 2 0); auto; try lia.
    + eapply cost_diff_short; [exact M0|exact Dj|exact Wp|exact Hml|]. left. exists false. rewrite <- E0. exists []. symmetry. apply app_nil_r.
    + intros h' D1 D2. eapply cost_diff_short; [exact D1|exact D2|exact Wp|exact Hmr|]. left. exists true. rewrite <- E0. exists []. symmetry. apply app_nil_r.
  - (* contains *)
    destruct ma; cbn [negb].
    + assert (Lm : (plen mp < W)%N). { destruct Wp as [_ Po]. rewrite <- (nlen_key W p), E0, nlen_app, nlen_cons, nlen_key in Po. lia. }
      pose proof (swf_half W c mp Pm Lm) as Hc. pose proof (room_half W HW c mp Pm Lm) as RH. pose proof (swf_half W (negb c) mp Pm Lm) as Hn.
      change (S (N.to_nat W - N.to_nat (plen mp))) with (room me) in RH.
      eapply am_bind; [apply within_atmost, wi_halves|lia|lia|]. intros [pa pb] Eab.
      pose proof (wpi_halves W _ h mp (dom_all h)) as H. apply run_rel in H. destruct H as (S' & H). rewrite Eab in H. cbn [rel] in H.
      rewrite (halves_eq W mp Pm Lm) in H. cbn [fst snd] in H. destruct H as [XA XB]. apply repr_denotes in XA, XB.
      assert (OH : owns none (h_halves W mp)) by (eapply ownp_owns; apply ownp_halves). destruct (run_keeps _ h OH) as (_ & _ & K1). set (h1 := fst (run _ h)) in *.
      assert (XC : denotes h1 (if c then pb else pa) (setNodeFromPrefix (half W c mp))) by (destruct c; assumption).
      assert (XN : denotes h1 (if c then pa else pb) (setNodeFromPrefix (half W (negb c) mp))) by (destruct c; assumption).
      destruct (run_difference f _ h1 _ _ (Some j) _ XC (K1 _ _ Dj) Hc Ho ltac:(lia)) as (y & Dy & Ey & Sy).
      destruct (run_keeps _ h1 (own_difference f (if c then pb else pa) (Some j))) as (_ & _ & K2).
      eapply am_bind; [eapply IH; [exact XC|apply K1; exact Dj|exact Wp|exact Hc|lia]|lia|lia|]. intros y' Ey'. rewrite Ey in Ey'. injection Ey' as <-.
      eapply (cost_union_sides _ (key mp) (negb c)); [apply K2; exact XN|exact Dy|exact Hn|rewrite negb_involutive; exact Sy|lia|lia].
    + pose proof (swf_l W _ _ _ _ _ _ _ _ Hm) as Hml. pose proof (swf_r W _ _ _ _ _ _ _ _ Hm) as Hmr.
      pose proof (rk W HW _ _ _ _ _ _ _ _ false Hm) as R1. pose proof (rk W HW _ _ _ _ _ _ _ _ true Hm) as R2. cbn [kid] in R1, R2. fold me in R1, R2.
      destruct c.
      * apply (INACT 2 0 (19 * room mr) (3 * room mr)); auto; try lia.
        -- eapply cost_diff_short; [exact M0|exact Dj|exact Wp|exact Hml|]. right. exists (key mp), true, x. split; auto. exists []. symmetry. apply app_nil_r.
        -- intros h' D1 D2. eapply IH; [exact D1|exact D2|exact Wp|exact Hmr|lia].
      * apply (INACT (19 * room ml) (3 * room ml) 2 0); auto; try lia.
        -- eapply IH; [exact M0|exact Dj|exact Wp|exact Hml|lia].
        -- intros h' D1 D2. eapply cost_diff_short; [exact D1|exact D2|exact Wp|exact Hmr|]. right. exists (key mp), false, x. split; auto. exists []. symmetry. apply app_nil_r.
Qed.
(* looking an address up: one path *)
Lemma cost_contains_address : forall f t pt i p h, denotes h (Some i) (setNodeFromPrefix p) -> denotes h pt t -> wf_prefix W p -> plen p = W -> swf [] t ->
  atmost (2 * room t) 0 (h_difference W f (Some i) pt) h.
Proof.
  induction f as [|f IH]; intros t pt i p h Di Dt Wp Lp Ht; cbn [h_difference]; [apply am_lift|]. cbn [nilp orb].
  destruct t as [|op od os oh oa ol or]; [cbn in Dt; subst; apply am_ret|].
  destruct (den_node _ _ _ _ _ _ _ _ _ Dt) as (j & e0 & e1 & -> & Ej & O0 & O1). cbn [nilp].
  pose proof Di as Di'. destruct (den_node _ _ _ _ _ _ _ _ _ Di') as (i' & d0 & d1 & [= <-] & Ei & _ & _).
  set (t := Node op od os oh oa ol or) in *. assert (RM : 1 <= room t) by (cbn; lia).
  eapply am_load; [exact Ei|lia|]. eapply am_load; [exact Ej|lia|]. cbn [hPrefix hactive negb].
  pose proof (swf_prefix W _ _ _ _ _ _ _ _ Ht) as Pt.
  pose proof (Key.compare_spec W HW p op Wp Pt) as C.
  destruct C as [E0|c x E0|c x E0|q' c xa xb rev E1 E2 Er]; cbn beta iota zeta; try apply am_ret.
  - destruct oa; [apply am_ret|]. destruct (swf_inactive W _ _ _ _ _ _ _ Ht) as (_ & _ & _ & _ & _ & Lo). apply (f_equal (@nlen bool)) in E0. rewrite !nlen_key in E0. lia.
  - exfalso. destruct Pt as [_ Pt]. rewrite <- (nlen_key W op), E0, nlen_app, nlen_cons, nlen_key in Pt. lia.
  - destruct oa; [apply am_ret|]. pose proof (rk W HW _ _ _ _ _ _ _ _ c Ht) as R1. fold t in R1.
    eapply am_mono; [eapply (IH (kid c ol or)); [exact Di| |exact Wp|exact Lp|]|lia|lia].
    + apply repr_kid; [exact O0|exact O1].
    + eapply swf_weaken; [apply pre_nil|exact (swf_kid W _ _ _ _ _ _ _ _ c Ht)].
Qed.
Lemma address_left : forall f t pt i p h x, denotes h (Some i) (setNodeFromPrefix p) -> denotes h pt t -> wf_prefix W p -> plen p = W -> swf [] t ->
  snd (run (h_difference W f (Some i) pt) h) = Ok x -> x = None \/ x = Some i.
Proof.
  induction f as [|f IH]; intros t pt i p h x Di Dt Wp Lp Ht; cbn [h_difference]; [discriminate|]. cbn [nilp orb].
  destruct t as [|op od os oh oa ol or]; [cbn in Dt; subst; cbn; intros [= <-]; auto|].
  destruct (den_node _ _ _ _ _ _ _ _ _ Dt) as (j & e0 & e1 & -> & Ej & O0 & O1). cbn [nilp].
  pose proof Di as Di'. destruct (den_node _ _ _ _ _ _ _ _ _ Di') as (i' & d0 & d1 & [= <-] & Ei & _ & _).
  rewrite (run_load _ _ _ _ Ei), (run_load _ _ _ _ Ej). cbn [hPrefix hactive negb].
  pose proof (swf_prefix W _ _ _ _ _ _ _ _ Ht) as Pt.
  pose proof (Key.compare_spec W HW p op Wp Pt) as C.
  destruct C as [E0|c x0 E0|c x0 E0|q' c xa xb rev E1 E2 Er]; cbn beta iota zeta.
  - destruct oa; [cbn; intros [= <-]; auto|]. destruct (swf_inactive W _ _ _ _ _ _ _ Ht) as (_ & _ & _ & _ & _ & Lo). apply (f_equal (@nlen bool)) in E0. rewrite !nlen_key in E0. lia.
  - exfalso. destruct Pt as [_ Pt]. rewrite <- (nlen_key W op), E0, nlen_app, nlen_cons, nlen_key in Pt. lia.
  - destruct oa; [cbn; intros [= <-]; auto|]. eapply (IH (kid c ol or)); eauto.
    + apply repr_kid; [exact O0|exact O1].
    + eapply swf_weaken; [apply pre_nil|exact (swf_kid W _ _ _ _ _ _ _ _ c Ht)].
  - cbn. intros [= <-]; auto.
Qed.
End SetCost.
