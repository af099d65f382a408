(* HeapCost2.v - what the operations that visit whole sets cost: at most a constant
   for each node of the operands. *)
From Verif Require Export HeapCost.
From Verif Require Import AggProof SetProof.
From Coq Require Import Arith Lia ZifyBool ZifyNat ZifyN.
Local Open Scope nat_scope.

Section Linear.
Variable W : N.
Notation heap := (heap unit).
Implicit Types (h : heap).

Lemma nodes_pos {T} p d s hh a (l r : trie T) : node_count (Node p d s hh a l r) = 1 + node_count l + node_count r.
Proof. reflexivity. Qed.

(* Union: nothing for the nodes below one that only one operand has *)
Lemma cost_union : forall f me other pm po h, denotes h pm me -> denotes h po other ->
  atmost (14 * (node_count me + node_count other)) (node_count me + node_count other) (h_union W f pm po) h.
Proof.
  induction f as [|f IH]; intros me other pm po h Dm Do; cbn [h_union]; [apply am_lift|].
  destruct (ptr_eqb _ _); [apply am_ret|].
  destruct other as [|op od os oh oa ol or]; [cbn in Do; subst; apply am_ret|].
  destruct (den_node _ _ _ _ _ _ _ _ _ Do) as (j & d0 & d1 & -> & Ej & O0 & O1). cbn [nilp].
  destruct me as [|mp md ms mh ma ml mr]; [cbn in Dm; subst; apply am_ret|].
  destruct (den_node _ _ _ _ _ _ _ _ _ Dm) as (i & e0 & e1 & -> & Ei & M0 & M1). cbn [nilp].
  pose proof (nodes_pos mp md ms mh ma ml mr) as NM. pose proof (nodes_pos op od os oh oa ol or) as NO.
  set (me := Node mp md ms mh ma ml mr) in *. set (other := Node op od os oh oa ol or) in *.
  set (m := mkH mp md ms mh ma e0 e1) in *. set (o := mkH op od os oh oa d0 d1) in *.
  set (n := node_count me + node_count other) in *.
  eapply am_load; [exact Ei|lia|]. eapply am_load; [exact Ej|lia|].
  destruct (compare _ _ _) as [[[result reversed] common] child].
  assert (SUP : atmost (14 * n - 1 - 1) n
     (let '(super, sub) := if reversed then (Some j, Some i) else (Some i, Some j) in
      pbind (load super) (fun s => if hactive s then ret super else
        pbind (if child then pbind (h_union W f (hc1 s) sub) (fun x => ret (hc0 s, x)) else pbind (h_union W f (hc0 s) sub) (fun x => ret (x, hc1 s)))
          (fun '(lft, rgt) => h_newHead (mkPrefix (paddr (hPrefix s)) (plen (hPrefix s))) lft rgt))) h).
  { destruct reversed.
    - eapply am_load; [exact Ej|lia|]. destruct (hactive o); [apply am_ret|].
      eapply am_bind with (s := 14 * (n - 1)) (a := n - 1); [|lia|lia|intros [lft rgt] _; apply am_newHead; lia].
      destruct child; [eapply am_bind; [apply (IH or me); eassumption|lia|lia|intros; apply am_ret]|eapply am_bind; [apply (IH ol me); eassumption|lia|lia|intros; apply am_ret]].
    - eapply am_load; [exact Ei|lia|]. destruct (hactive m); [apply am_ret|].
      eapply am_bind with (s := 14 * (n - 1)) (a := n - 1); [|lia|lia|intros [lft rgt] _; apply am_newHead; lia].
      destruct child; [eapply am_bind; [apply (IH mr other); eassumption|lia|lia|intros; apply am_ret]|eapply am_bind; [apply (IH ml other); eassumption|lia|lia|intros; apply am_ret]]. }
  destruct result; auto.
  - destruct (hactive m); [apply am_ret|]. destruct (hactive o); [apply am_ret|].
    eapply am_bind; [apply (IH ml ol); [exact M0|exact O0]|lia|lia|]. intros lft _.
    destruct (run_keeps _ h (own_union W f e0 d0)) as (_ & _ & K).
    eapply am_bind; [apply (IH mr or); [apply K; exact M1|apply K; exact O1]|lia|lia|]. intros rgt _.
    destruct (_ && _); [apply am_ret|apply am_newHead; lia].
  - destruct (if xorb child reversed then _ else _) as [lft rgt]. apply am_newHead; lia.
Qed.

Lemma ro_NumAddresses : forall f p, readonly (h_NumAddresses W f p).
Proof.
  induction f as [|f IH]; intros p; cbn [h_NumAddresses]; [exact I|]. destruct (nilp p); [exact I|]. apply ro_bind; [apply ro_load|intros n].
  destruct (hactive n); [exact I|]. apply ro_bind; [apply IH|intros]. apply ro_bind; [apply IH|intros; exact I].
Qed.
Lemma ro_trie_IsEmpty : forall f p, readonly (h_trie_IsEmpty f p).
Proof.
  induction f as [|f IH]; intros p; cbn [h_trie_IsEmpty]; [exact I|]. destruct (nilp p); [exact I|]. apply ro_bind; [apply ro_load|intros n].
  destruct (hactive n); [exact I|]. apply ro_bind; [apply IH|intros b]. destruct b; [apply IH|exact I].
Qed.
Lemma ro_IsEmpty p : readonly (h_IsEmpty W p).
Proof. unfold h_IsEmpty. destruct (W =? 32)%N; [apply ro_bind; [apply ro_NumAddresses|intros; exact I]|apply ro_trie_IsEmpty]. Qed.
Lemma ro_Equal {T} : forall f p q (e : comparator T), readonly (h_Equal f p q e).
Proof.
  induction f as [|f IH]; intros p q e; cbn [h_Equal]; [exact I|]. destruct (ptr_eqb p q); [exact I|]. destruct (nilp p); [exact I|]. destruct (nilp q); [exact I|].
  apply ro_bind; [apply ro_load|intros m]. apply ro_bind; [apply ro_load|intros o]. destruct (negb _); [exact I|]. destruct (negb _); [exact I|].
  apply ro_bind; [destruct (hactive m); exact I|intros s]. destruct (negb s); [exact I|]. apply ro_bind; [apply IH|intros e0]. destruct (negb e0); [exact I|].
  apply ro_bind; [apply IH|intros e1]. destruct (negb e1); exact I.
Qed.
Lemma cost_NumAddresses : forall f t p h, denotes h p t -> atmost (node_count t) 0 (h_NumAddresses W f p) h.
Proof.
  induction f as [|f IH]; intros t p h D; cbn [h_NumAddresses]; [apply am_lift|].
  destruct t as [|q d s hh a l r]; [cbn in D; subst; apply am_ret|].
  destruct (den_node _ _ _ _ _ _ _ _ _ D) as (i & c0 & c1 & -> & Ei & D0 & D1). cbn [nilp]. rewrite nodes_pos. eapply am_load; [exact Ei|lia|].
  destruct (hactive _); [apply am_ret|].
  eapply am_reads_bind; [apply ro_run, ro_NumAddresses|apply IH; exact D0|lia|intros x].
  eapply am_reads_bind; [apply ro_run, ro_NumAddresses|apply IH; exact D1|lia|intros; apply am_ret].
Qed.
Lemma cost_trie_IsEmpty : forall f t p h, denotes h p t -> atmost (node_count t) 0 (h_trie_IsEmpty f p) h.
Proof.
  induction f as [|f IH]; intros t p h D; cbn [h_trie_IsEmpty]; [apply am_lift|].
  destruct t as [|q d s hh a l r]; [cbn in D; subst; apply am_ret|].
  destruct (den_node _ _ _ _ _ _ _ _ _ D) as (i & c0 & c1 & -> & Ei & D0 & D1). cbn [nilp]. rewrite nodes_pos. eapply am_load; [exact Ei|lia|].
  destruct (hactive _); [apply am_ret|].
  eapply am_reads_bind; [apply ro_run, ro_trie_IsEmpty|apply IH; exact D0|lia|intros x].
  destruct x; [|apply am_ret]. eapply am_mono; [apply IH; exact D1|cbn [hc1]; lia|lia].
Qed.
Lemma cost_IsEmpty t p h : denotes h p t -> atmost (node_count t) 0 (h_IsEmpty W p) h.
Proof.
  intros D. unfold h_IsEmpty. destruct (W =? 32)%N; [|apply cost_trie_IsEmpty; exact D].
  eapply am_reads_bind; [apply ro_run, ro_NumAddresses|apply cost_NumAddresses; exact D|lia|intros; apply am_ret].
Qed.
(* Equal looks at no more nodes than either operand has *)
Lemma cost_Equal {T} (e : comparator T) : forall f t u p q (h : Heap.heap T), denotes h p t -> denotes h q u ->
  atmost (2 * Nat.min (node_count t) (node_count u)) 0 (h_Equal f p q e) h.
Proof.
  induction f as [|f IH]; intros t u p q h Dt Du; cbn [h_Equal]; [apply am_lift|].
  destruct (ptr_eqb _ _); [apply am_ret|].
  destruct t as [|p1 d1 s1 h1 a1 l1 r1]; [cbn in Dt; subst; apply am_ret|].
  destruct (den_node _ _ _ _ _ _ _ _ _ Dt) as (i & c0 & c1 & -> & Ei & C0 & C1). cbn [nilp].
  destruct u as [|p2 d2 s2 h2 a2 l2 r2]; [cbn in Du; subst; apply am_ret|].
  destruct (den_node _ _ _ _ _ _ _ _ _ Du) as (j & k0 & k1 & -> & Ej & D0 & D1). cbn [nilp]. rewrite !nodes_pos.
  eapply am_load; [exact Ei|lia|]. eapply am_load; [exact Ej|lia|].
  destruct (negb _); [apply am_ret|]. destruct (negb _); [apply am_ret|].
  eapply (am_reads_bind 0); [apply ro_run; destruct (hactive _); exact I|destruct (hactive _); [apply am_lift|apply am_ret]|lia|intros s]. destruct (negb s); [apply am_ret|].
  eapply am_reads_bind; [apply ro_run, ro_Equal|apply IH; [exact C0|exact D0]|lia|intros e0]. destruct (negb e0); [apply am_ret|].
  eapply am_reads_bind; [apply ro_run, ro_Equal|apply IH; [exact C1|exact D1]|lia|intros e1']. destruct (negb e1'); apply am_ret.
Qed.
End Linear.

(* ---- taking one set away from another ---- *)
Section Diff.
Variable W : N.
Hypothesis HW : (0 < W /\ W < 2 ^ 15)%N.
Notation w := (N.to_nat W).
Notation key := (key W).
Notation swf := (swf W).
Notation room := (room W).
Notation np := (@nop unit).
Notation heap := (heap unit).
Implicit Types (h : heap) (t : snode).
Let NSn : forall a b : snode, np a b = true -> a = b. Proof. discriminate. Qed.

(* the nodes of t at or below the prefix k *)
Fixpoint under (k : list bool) (t : snode) : nat :=
  match t with Nil => 0 | Node p _ _ _ _ l r => (if preb k (key p) then 1 else 0) + under k l + under k r end.
Lemma under_le k t : under k t <= node_count t.
Proof. induction t as [|p d s hh a l IHl r IHr]; cbn; [lia|]. destruct (preb _ _); lia. Qed.
Lemma under_mono k k' t : pre k k' -> under k' t <= under k t.
Proof.
  intros H. induction t as [|p d s hh a l IHl r IHr]; cbn; [lia|]. destruct (preb k' (key p)) eqn:E; [|lia].
  assert (X : preb k (key p) = true) by (apply preb_spec; apply preb_spec in E; eapply pre_trans; eauto). rewrite X. lia.
Qed.
Lemma under_split k t : under (k ++ [false]) t + under (k ++ [true]) t <= under k t.
Proof.
  induction t as [|p d s hh a l IHl r IHr]; cbn; [lia|].
  assert (M : forall c, preb (k ++ [c]) (key p) = true -> preb k (key p) = true) by (intros c E; apply preb_spec; apply preb_spec in E; eapply pre_app; exact E).
  destruct (preb (k ++ [false]) (key p)) eqn:E0; destruct (preb (k ++ [true]) (key p)) eqn:E1.
  - apply preb_spec in E0, E1. pose proof (pre_snoc_inj _ _ _ _ E0 E1). discriminate.
  - rewrite (M _ E0). lia.
  - rewrite (M _ E1). lia.
  - lia.
Qed.
Definition below (me other : snode) : nat := match me with Nil => 0 | Node p _ _ _ _ _ _ => under (key p) other end.
Definition dweight (me other : snode) : nat := node_count me + room me * below me other.
Lemma below_kid k p d s hh a l r other : swf k (Node p d s hh a l r) -> below l other + below r other <= below (Node p d s hh a l r) other.
Proof.
  intros H. pose proof (swf_l W _ _ _ _ _ _ _ _ H) as Hl. pose proof (swf_r W _ _ _ _ _ _ _ _ H) as Hr.
  assert (B : forall c t, swf (key p ++ [c]) t -> below t other <= under (key p ++ [c]) other).
  { intros c [|p' d' s' hh' a' l' r'] Ht; cbn; [lia|]. apply under_mono. exact (swf_pre W _ _ _ _ _ _ _ _ Ht). }
  pose proof (B _ _ Hl). pose proof (B _ _ Hr). pose proof (under_split (key p) other). cbn [below]. lia.
Qed.
Lemma dweight_kids k p d s hh a l r other : swf k (Node p d s hh a l r) -> dweight l other + dweight r other + 1 <= dweight (Node p d s hh a l r) other.
Proof.
  intros H. pose proof (below_kid _ _ _ _ _ _ _ _ other H) as B. pose proof (rk W HW _ _ _ _ _ _ _ _ false H) as R1. pose proof (rk W HW _ _ _ _ _ _ _ _ true H) as R2. cbn [kid] in R1, R2.
  unfold dweight. rewrite nodes_pos. set (x := below l other) in *. set (y := below r other) in *. set (z := below (Node p d s hh a l r) other) in *. set (rm := room (Node _ _ _ _ _ _ _)) in *.
  assert (room l * x <= rm * x) by (apply Nat.mul_le_mono_r; lia). assert (room r * y <= rm * y) by (apply Nat.mul_le_mono_r; lia).
  assert (rm * (x + y) <= rm * z) by (apply Nat.mul_le_mono_l; exact B). lia.
Qed.
Lemma dweight_le me other : dweight me other <= node_count me + (w + 1) * node_count other.
Proof.
  unfold dweight. pose proof (room_max W HW _ NSn me) as R. assert (B : below me other <= node_count other) by (destruct me; cbn [below]; [lia|apply under_le]).
  assert (room me * below me other <= (w + 1) * node_count other) by (apply Nat.mul_le_mono; lia). lia.
Qed.
Definition unit_cost : nat := 4 * (w + 1) + 20.
Lemma cost_difference_sets : forall f k me other pm po h, denotes h pm me -> denotes h po other -> swf k me -> swf [] other ->
  room me + room other < f -> atmost (2 * room other + unit_cost * dweight me other) (3 * dweight me other) (h_difference W f pm po) h.
Proof.
  induction f as [|f IH]; intros k me other pm po h Dm Do Hm Ho F; [lia|]. cbn [h_difference].
  destruct me as [|mp md ms mh ma ml mr]; [cbn in Dm; subst; apply am_ret|].
  destruct (den_node _ _ _ _ _ _ _ _ _ Dm) as (i & e0 & e1 & -> & Ei & M0 & M1). cbn [nilp orb].
  destruct other as [|op od os oh oa ol or]; [cbn in Do; subst; apply am_ret|].
  destruct (den_node _ _ _ _ _ _ _ _ _ Do) as (j & d0 & d1 & -> & Ej & O0 & O1). cbn [nilp].
  pose proof (dweight_kids _ _ _ _ _ _ _ _ (Node op od os oh oa ol or) Hm) as SK.
  pose proof (rk W HW _ _ _ _ _ _ _ _ false Ho) as Q1. pose proof (rk W HW _ _ _ _ _ _ _ _ true Ho) as Q2. cbn [kid] in Q1, Q2.
  assert (LM : ma = true -> forall c, below (Node mp md ms mh ma ml mr) (Node op od os oh oa ol or) = c -> dweight (Node mp md ms mh ma ml mr) (Node op od os oh oa ol or) = 1 + room (Node mp md ms mh ma ml mr) * c).
  { intros -> c <-. unfold dweight. rewrite nodes_pos. pose proof (swf_active W _ _ _ _ _ _ _ Hm) as X. injection X as _ _ _ -> ->. cbn [node_count]. lia. }
  set (me := Node mp md ms mh ma ml mr) in *. set (other := Node op od os oh oa ol or) in *.
  assert (RM : 1 <= room me) by (cbn; lia). assert (RO : 1 <= room other) by (cbn; lia). pose proof (room_max W HW _ NSn other) as RX.
  set (K := unit_cost) in *. assert (KB : 4 * room other + 20 <= K) by (unfold K, unit_cost; lia).
  eapply am_load; [exact Ei|lia|]. eapply am_load; [exact Ej|lia|]. cbn [hPrefix hactive hc0 hc1].
  pose proof (swf_prefix W _ _ _ _ _ _ _ _ Hm) as Pm. pose proof (swf_prefix W _ _ _ _ _ _ _ _ Ho) as Po.
  pose proof (Key.compare_spec W HW mp op Pm Po) as C.
  (* both children against all of other *)
  assert (INACT : ma = false ->
     atmost (2 * room other + K * dweight me other - 1 - 1) (3 * dweight me other) (pbind (h_difference W f e0 (Some j)) (fun lft => pbind (h_difference W f e1 (Some j)) (fun rgt =>
        if ptr_eqb lft e0 && ptr_eqb rgt e1 then ret (Some i) else h_Union W lft rgt))) h).
  { intros ->. pose proof (swf_l W _ _ _ _ _ _ _ _ Hm) as Hml. pose proof (swf_r W _ _ _ _ _ _ _ _ Hm) as Hmr.
    pose proof (rk W HW _ _ _ _ _ _ _ _ false Hm) as R1. pose proof (rk W HW _ _ _ _ _ _ _ _ true Hm) as R2. cbn [kid] in R1, R2. fold me in R1, R2.
    assert (SS : K * dweight ml other + K * dweight mr other + K <= K * dweight me other) by nia.
    destruct (run_difference W HW f _ h e0 ml (Some j) _ M0 Do Hml Ho ltac:(lia)) as (x & Dx & Ex & Sx).
    destruct (run_keeps _ h (own_difference W f e0 (Some j))) as (_ & _ & K1).
    eapply am_bind; [eapply (IH _ ml other); [exact M0|exact Do|exact Hml|exact Ho|lia]|lia|lia|]. intros x' Ex'. rewrite Ex in Ex'. injection Ex' as <-. set (h1 := fst (run _ h)) in *.
    destruct (run_difference W HW f _ h1 e1 mr (Some j) _ (K1 _ _ M1) (K1 _ _ Do) Hmr Ho ltac:(lia)) as (y & Dy & Ey & Sy).
    destruct (run_keeps _ h1 (own_difference W f e1 (Some j))) as (_ & _ & K2).
    eapply am_bind; [eapply (IH _ mr other); [exact (K1 _ _ M1)|exact (K1 _ _ Do)|exact Hmr|exact Ho|lia]|lia|lia|]. intros y' Ey'. rewrite Ey in Ey'. injection Ey' as <-. set (h2 := fst (run _ h1)) in *.
    destruct (_ && _); [apply am_ret|]. eapply (cost_union_sides W HW h2 (key mp) false); [apply K2; exact Dx|exact Dy|exact Sx|exact Sy|lia|lia]. }
  destruct C as [E0|c x E0|c x E0|q' c xa xb rev E1 E2 Er]; cbn beta iota zeta; try apply am_ret.
  - (* same *)
    destruct ma eqn:Ema; cbn [negb]; [|auto]. destruct oa eqn:Eoa; [apply am_ret|].
    assert (Lm : (plen mp < W)%N). { destruct (swf_inactive W _ _ _ _ _ _ _ Ho) as (_ & _ & _ & _ & _ & Lo). apply (f_equal (@nlen bool)) in E0. rewrite !nlen_key in E0. lia. }
    pose proof (swf_half W false mp Pm Lm) as Ha. pose proof (room_half W HW false mp Pm Lm) as RA.
    pose proof (swf_half W true mp Pm Lm) as Hb. pose proof (room_half W HW true mp Pm Lm) as RB.
    pose proof (swf_l W _ _ _ _ _ _ _ _ Ho) as Hol. pose proof (swf_r W _ _ _ _ _ _ _ _ Ho) as Hor.
    assert (Hol' : swf [] ol) by (eapply swf_weaken; [apply pre_nil|exact Hol]). assert (Hor' : swf [] or) by (eapply swf_weaken; [apply pre_nil|exact Hor]).
    change (S (w - N.to_nat (plen mp))) with (room me) in RA, RB.
    set (A := setNodeFromPrefix (half W false mp)) in *. set (B := setNodeFromPrefix (half W true mp)) in *.
    assert (U : below A ol + below B or + 1 <= below me other).
    { cbn [below me A B setNodeFromPrefix]. rewrite !key_half by auto. cbn [under other].
      assert (X : preb (key mp) (key op) = true) by (apply preb_spec; rewrite E0; apply pre_refl). rewrite X.
      pose proof (under_mono (key mp) (key mp ++ [false]) ol (pre_app_r _ _)). pose proof (under_mono (key mp) (key mp ++ [true]) or (pre_app_r _ _)). lia. }
    assert (R2 : 2 <= room me) by (cbn; lia).
    assert (SS : dweight A ol + dweight B or + 1 <= dweight me other).
    { rewrite (LM eq_refl _ eq_refl). unfold dweight. change (node_count A) with 1. change (node_count B) with 1.
      assert (room A * below A ol <= room me * below A ol) by (apply Nat.mul_le_mono_r; lia). assert (room B * below B or <= room me * below B or) by (apply Nat.mul_le_mono_r; lia).
      assert (room me * (below A ol + below B or + 1) <= room me * below me other) by (apply Nat.mul_le_mono_l; exact U). lia. }
    assert (SK' : K * dweight A ol + K * dweight B or + K <= K * dweight me other) by nia.
    eapply am_bind; [apply within_atmost, wi_halves|lia|lia|]. intros [pa pb] Eab.
    pose proof (wpi_halves W _ h mp (dom_all h)) as H. apply run_rel in H. destruct H as (S' & H). rewrite Eab in H. cbn [rel] in H.
    rewrite (halves_eq W mp Pm Lm) in H. cbn [fst snd] in H. destruct H as [XA XB]. apply repr_denotes in XA, XB. fold A in XA. fold B in XB.
    assert (OH : owns none (h_halves W mp)) by (eapply ownp_owns; apply ownp_halves). destruct (run_keeps _ h OH) as (_ & _ & K1). set (h1 := fst (run _ h)) in *.
    destruct (run_difference W HW f _ h1 pa A d0 ol XA (K1 _ _ O0) Ha Hol' ltac:(lia)) as (y & Dy & Ey & Sy).
    destruct (run_keeps _ h1 (own_difference W f pa d0)) as (_ & _ & K2).
    eapply am_bind; [eapply (IH _ A ol); [exact XA|exact (K1 _ _ O0)|exact Ha|exact Hol'|lia]|lia|lia|]. intros y' Ey'. rewrite Ey in Ey'. injection Ey' as <-. set (h2 := fst (run _ h1)) in *.
    destruct (run_difference W HW f _ h2 pb B d1 or (K2 _ _ XB) (K2 _ _ (K1 _ _ O1)) Hb Hor' ltac:(lia)) as (z & Dz & Ez & Sz).
    destruct (run_keeps _ h2 (own_difference W f pb d1)) as (_ & _ & K3).
    eapply am_bind; [eapply (IH _ B or); [exact (K2 _ _ XB)|exact (K2 _ _ (K1 _ _ O1))|exact Hb|exact Hor'|lia]|lia|lia|]. intros z' Ez'. rewrite Ez in Ez'. injection Ez' as <-.
    eapply (cost_union_sides W HW _ (key mp) false); [apply K3; exact Dy|exact Dz|exact Sy|exact Sz|lia|lia].
  - (* contains *)
    destruct ma eqn:Ema; cbn [negb]; [|auto].
    assert (Lm : (plen mp < W)%N). { destruct Po as [_ Po]. rewrite <- (nlen_key W op), E0, nlen_app, nlen_cons, nlen_key in Po. lia. }
    pose proof (swf_half W c mp Pm Lm) as Hc. pose proof (room_half W HW c mp Pm Lm) as RH. pose proof (swf_half W (negb c) mp Pm Lm) as Hn.
    change (S (w - N.to_nat (plen mp))) with (room me) in RH. set (A := setNodeFromPrefix (half W c mp)) in *.
    assert (U : below A other <= below me other) by (cbn [below me A setNodeFromPrefix]; rewrite key_half by auto; apply under_mono, pre_app_r).
    assert (U1 : 1 <= below me other).
    { cbn [below me under other]. assert (X : preb (key mp) (key op) = true) by (apply preb_spec; rewrite E0; apply pre_app_r). rewrite X. lia. }
    assert (SS : dweight A other + 1 <= dweight me other).
    { rewrite (LM eq_refl _ eq_refl). unfold dweight. change (node_count A) with 1.
      assert (room A * below A other <= (room me - 1) * below me other) by (apply Nat.mul_le_mono; lia).
      assert (room me * below me other = (room me - 1) * below me other + below me other) by nia. lia. }
    assert (SK' : K * dweight A other + K <= K * dweight me other) by nia.
    eapply am_bind; [apply within_atmost, wi_halves|lia|lia|]. intros [pa pb] Eab.
    pose proof (wpi_halves W _ h mp (dom_all h)) as H. apply run_rel in H. destruct H as (S' & H). rewrite Eab in H. cbn [rel] in H.
    rewrite (halves_eq W mp Pm Lm) in H. cbn [fst snd] in H. destruct H as [XA XB]. apply repr_denotes in XA, XB.
    assert (OH : owns none (h_halves W mp)) by (eapply ownp_owns; apply ownp_halves). destruct (run_keeps _ h OH) as (_ & _ & K1). set (h1 := fst (run _ h)) in *.
    assert (XC : denotes h1 (if c then pb else pa) A) by (destruct c; assumption).
    assert (XN : denotes h1 (if c then pa else pb) (setNodeFromPrefix (half W (negb c) mp))) by (destruct c; assumption).
    destruct (run_difference W HW f _ h1 _ _ (Some j) _ XC (K1 _ _ Do) Hc Ho ltac:(lia)) as (y & Dy & Ey & Sy).
    destruct (run_keeps _ h1 (own_difference W f (if c then pb else pa) (Some j))) as (_ & _ & K2).
    eapply am_bind; [eapply (IH _ A other); [exact XC|apply K1; exact Do|exact Hc|exact Ho|lia]|lia|lia|]. intros y' Ey'. rewrite Ey in Ey'. injection Ey' as <-.
    eapply (cost_union_sides W HW _ (key mp) (negb c)); [apply K2; exact XN|exact Dy|exact Hn|rewrite negb_involutive; exact Sy|lia|lia].
  - (* contained *)
    destruct oa eqn:Eoa; [apply am_ret|].
    assert (U : below me (kid c ol or) <= below me other).
    { cbn [below me]. cbn [under other]. destruct c; cbn [kid]; destruct (preb _ _); lia. }
    assert (SS : dweight me (kid c ol or) <= dweight me other) by (unfold dweight; apply Nat.add_le_mono_l, Nat.mul_le_mono_l, U).
    assert (SK' : K * dweight me (kid c ol or) <= K * dweight me other) by (apply Nat.mul_le_mono_l, SS).
    assert (RK : room (kid c ol or) < room other) by (destruct c; cbn [kid]; assumption).
    eapply am_mono; [eapply (IH _ me (kid c ol or)); [exact Dm|apply repr_kid; [exact O0|exact O1]|exact Hm|eapply swf_weaken; [apply pre_nil|exact (swf_kid W _ _ _ _ _ _ _ _ c Ho)]|lia]|lia|lia].
Qed.

(* ---- the common part of two sets ---- *)
(* the pairs (x, y), x a node of m and y one of o at or below x *)
Fixpoint over (m o : snode) : nat := match m with Nil => 0 | Node p _ _ _ _ l r => under (key p) o + over l o + over r o end.
(* the nodes of m at or above k *)
Fixpoint above (k : list bool) (m : snode) : nat :=
  match m with Nil => 0 | Node p _ _ _ _ l r => (if preb (key p) k then 1 else 0) + above k l + above k r end.
Lemma over_node m q d s hh a l r : over m (Node q d s hh a l r) = above (key q) m + over m l + over m r.
Proof. induction m as [|p pd ps ph pa ml IHl mr IHr]; cbn [over above under]; [reflexivity|]. rewrite IHl, IHr. destruct (preb _ _); lia. Qed.
Lemma over_nil m : over m Nil = 0.
Proof. induction m as [|p pd ps ph pa ml IHl mr IHr]; cbn; lia. Qed.
Lemma above_room q : forall m k, swf k m -> above q m <= room m.
Proof.
  induction m as [|p d s hh a l IHl r IHr]; intros k H; [cbn; lia|].
  pose proof (swf_l W _ _ _ _ _ _ _ _ H) as Hl. pose proof (swf_r W _ _ _ _ _ _ _ _ H) as Hr.
  pose proof (rk W HW _ _ _ _ _ _ _ _ false H) as R1. pose proof (rk W HW _ _ _ _ _ _ _ _ true H) as R2. cbn [kid] in R1, R2.
  specialize (IHl _ Hl). specialize (IHr _ Hr).
  assert (Z : forall c t, swf (key p ++ [c]) t -> above q t = 0 \/ pre (key p ++ [c]) q).
  { intros c t. remember (key p ++ [c]) as x eqn:Ex. clear Ex. revert x. induction t as [|p' d' s' hh' a' l' IHl' r' IHr']; intros x Ht; [auto|]. cbn [above].
    pose proof (swf_pre W _ _ _ _ _ _ _ _ Ht) as Px. pose proof (swf_l W _ _ _ _ _ _ _ _ Ht) as Tl. pose proof (swf_r W _ _ _ _ _ _ _ _ Ht) as Tr.
    destruct (preb (key p') q) eqn:E; [right; apply preb_spec in E; eapply pre_trans; eauto|].
    destruct (IHl' _ Tl) as [A|A]; [|right; eapply pre_trans; [exact Px|eapply pre_app; exact A]].
    destruct (IHr' _ Tr) as [B|B]; [|right; eapply pre_trans; [exact Px|eapply pre_app; exact B]]. left. lia. }
  cbn [above]. assert (above q l = 0 \/ above q r = 0).
  { destruct (Z _ _ Hl) as [A|A]; auto. destruct (Z _ _ Hr) as [B|B]; auto. pose proof (pre_snoc_inj _ _ _ _ A B). discriminate. }
  destruct (preb _ _); lia.
Qed.
Lemma over_le k m o : swf k m -> over m o <= (w + 1) * node_count o.
Proof.
  intros H. pose proof (room_max W HW _ NSn m) as R. induction o as [|q d s hh a l IHl r IHr]; [rewrite over_nil; lia|].
  rewrite over_node, nodes_pos. pose proof (above_room (key q) m k H). lia.
Qed.
Definition pairs (m o : snode) : nat := over m o + over o m.
Lemma pairs_sym m o : pairs m o = pairs o m. Proof. unfold pairs. lia. Qed.
Lemma pairs_le k k' m o : swf k m -> swf k' o -> pairs m o <= (w + 1) * (node_count m + node_count o).
Proof. intros H H'. pose proof (over_le _ m o H). pose proof (over_le _ o m H'). unfold pairs. lia. Qed.
Lemma pairs_kids p d s hh a l r q d' s' hh' a' l' r' : pre (key p) (key q) \/ pre (key q) (key p) ->
  let m := Node p d s hh a l r in let o := Node q d' s' hh' a' l' r' in pairs o l + pairs o r + 1 <= pairs m o.
Proof.
  intros H m o. assert (E1 : over m o = under (key p) o + over l o + over r o) by reflexivity.
  assert (E2 : over o m = above (key p) o + over o l + over o r) by (unfold m; apply over_node).
  assert (1 <= under (key p) o + above (key p) o) by (cbn [under above o]; destruct H as [H|H]; apply preb_spec in H; rewrite H; lia).
  unfold pairs. lia.
Qed.
Lemma own_intersect f me other : owns none (h_intersect W f me other).
Proof. eapply ownp_owns. apply ownp_intersect. Qed.
Lemma run_intersect f h pm me pq other : denotes h pm me -> denotes h pq other -> swf [] me -> swf [] other -> room me + room other < f ->
  exists x t, denotes (fst (run (h_intersect W f pm pq) h)) x t /\ snd (run (h_intersect W f pm pq) h) = Ok x /\
    (forall k, swf k me -> swf k t) /\ (forall k, swf k other -> swf k t).
Proof.
  intros Dm Do Hm Ho F. pose proof (wpi_intersect W HW f me other pm pq _ h (dom_all h) (denotes_dom _ _ _ Dm) (denotes_dom _ _ _ Do) Hm Ho F) as H.
  apply run_rel in H. destruct H as (S' & H). destruct (intersect_ok W HW np NSn f me other F Hm Ho) as (t & E & S1 & S2 & _). rewrite E in *.
  destruct (snd (run (h_intersect W f pm pq) h)) as [x| |]; try contradiction. exists x, t. cbn in H. split; [eapply repr_denotes; exact H|]. split; [reflexivity|]. split; assumption.
Qed.
Lemma cost_intersect : forall f me other pm po h, denotes h pm me -> denotes h po other -> swf [] me -> swf [] other ->
  room me + room other < f -> atmost (2 + 17 * pairs me other) (pairs me other) (h_intersect W f pm po) h.
Proof.
  induction f as [|f IH]; intros me other pm po h Dm Do Hm Ho F; [lia|]. cbn [h_intersect].
  destruct me as [|mp md ms mh ma ml mr]; [cbn in Dm; subst; apply am_ret|].
  destruct (den_node _ _ _ _ _ _ _ _ _ Dm) as (i & e0 & e1 & -> & Ei & M0 & M1). cbn [nilp orb].
  destruct other as [|op od os oh oa ol or]; [cbn in Do; subst; apply am_ret|].
  destruct (den_node _ _ _ _ _ _ _ _ _ Do) as (j & d0 & d1 & -> & Ej & O0 & O1). cbn [nilp].
  pose proof (pairs_kids mp md ms mh ma ml mr op od os oh oa ol or) as PK. pose proof (pairs_kids op od os oh oa ol or mp md ms mh ma ml mr) as PK'. cbn zeta in PK, PK'.
  rewrite (pairs_sym (Node op od os oh oa ol or)) in PK'.
  pose proof (rk W HW _ _ _ _ _ _ _ _ false Hm) as R1. pose proof (rk W HW _ _ _ _ _ _ _ _ true Hm) as R2. cbn [kid] in R1, R2.
  pose proof (rk W HW _ _ _ _ _ _ _ _ false Ho) as Q1. pose proof (rk W HW _ _ _ _ _ _ _ _ true Ho) as Q2. cbn [kid] in Q1, Q2.
  pose proof (swf_l W _ _ _ _ _ _ _ _ Hm) as Hml. pose proof (swf_r W _ _ _ _ _ _ _ _ Hm) as Hmr. pose proof (swf_l W _ _ _ _ _ _ _ _ Ho) as Hol. pose proof (swf_r W _ _ _ _ _ _ _ _ Ho) as Hor.
  set (me := Node mp md ms mh ma ml mr) in *. set (other := Node op od os oh oa ol or) in *.
  eapply am_load; [exact Ei|lia|]. eapply am_load; [exact Ej|lia|]. cbn [hPrefix hactive hc0 hc1].
  pose proof (swf_prefix W _ _ _ _ _ _ _ _ Hm) as Pm. pose proof (swf_prefix W _ _ _ _ _ _ _ _ Ho) as Po.
  pose proof (Key.compare_spec W HW mp op Pm Po) as C.
  (* a against the two halves b and c of a node *)
  assert (TWO : forall a b c pa pb pc q s n, denotes h pa a -> denotes h pb b -> denotes h pc c -> swf [] a -> swf (q ++ [false]) b -> swf (q ++ [true]) c ->
     room a + room b < f -> room a + room c < f -> 17 * (pairs a b + pairs a c + 1) <= s -> pairs a b + pairs a c + 1 <= n ->
     atmost s n (pbind (h_intersect W f pa pb) (fun x => pbind (h_intersect W f pa pc) (fun y => h_Union W x y))) h).
  { intros a b c pa pb pc q s n Da Db Dc Ha Hb Hc F1 F2 B1 B2.
    assert (Hb' : swf [] b) by (eapply swf_weaken; [apply pre_nil|exact Hb]). assert (Hc' : swf [] c) by (eapply swf_weaken; [apply pre_nil|exact Hc]).
    destruct (run_intersect f h pa a pb b Da Db Ha Hb' F1) as (x & tx & Dx & Ex & _ & Sx).
    destruct (run_keeps _ h (own_intersect f pa pb)) as (_ & _ & K1).
    eapply am_bind; [apply (IH a b); [exact Da|exact Db|exact Ha|exact Hb'|exact F1]|lia|lia|]. intros x' Ex'. rewrite Ex in Ex'. injection Ex' as <-. set (h1 := fst (run _ h)) in *.
    destruct (run_intersect f h1 pa a pc c (K1 _ _ Da) (K1 _ _ Dc) Ha Hc' F2) as (y & ty & Dy & Ey & _ & Sy).
    destruct (run_keeps _ h1 (own_intersect f pa pc)) as (_ & _ & K2).
    eapply am_bind; [apply (IH a c); [exact (K1 _ _ Da)|exact (K1 _ _ Dc)|exact Ha|exact Hc'|exact F2]|lia|lia|]. intros y' Ey'. rewrite Ey in Ey'. injection Ey' as <-.
    eapply (cost_union_sides W HW _ q false); [apply K2; exact Dx|exact Dy|exact (Sx _ Hb)|exact (Sy _ Hc)|lia|lia]. }
  assert (GO : forall rev, pre (key mp) (key op) \/ pre (key op) (key mp) -> atmost (2 + 17 * pairs me other - 1 - 1) (pairs me other)
     (if negb ma then pbind (h_intersect W f (Some j) e0) (fun x => pbind (h_intersect W f (Some j) e1) (fun y => h_Union W x y))
      else if negb oa then pbind (h_intersect W f (Some i) d0) (fun x => pbind (h_intersect W f (Some i) d1) (fun y => h_Union W x y))
      else if rev : bool then ret (Some i) else ret (Some j)) h).
  { intros rev X. specialize (PK X). specialize (PK' ltac:(tauto)). destruct ma; cbn [negb].
    - destruct oa; cbn [negb]; [destruct rev; apply am_ret|]. apply (TWO me ol or _ _ _ (key op)); auto; lia.
    - apply (TWO other ml mr _ _ _ (key mp)); auto; lia. }
  destruct C as [E0|c x E0|c x E0|q' c xa xb rev E1 E2 Er]; cbn beta iota zeta; try apply am_ret; first [apply (GO false)|apply (GO true)].
  - left. rewrite E0. apply pre_refl.
  - left. rewrite E0. apply pre_app_r.
  - right. rewrite E0. apply pre_app_r.
Qed.
End Diff.
