(* HeapShare.v - the nodes two trees have in common, and what diff costs when it
   only has to look at the others. *)
From Verif Require Export HeapCost.
From Verif Require Import KeyMore SetProof.
From Coq Require Import Arith Lia ZifyBool ZifyNat ZifyN.
Local Open Scope nat_scope.

(* the nodes a program can reach from a pointer *)
Inductive reaches {T} (h : heap T) : ptr -> nat -> Prop :=
| reach_here i n : nth_error h i = Some n -> reaches h (Some i) i
| reach_0 i n j : nth_error h i = Some n -> reaches h (hc0 n) j -> reaches h (Some i) j
| reach_1 i n j : nth_error h i = Some n -> reaches h (hc1 n) j -> reaches h (Some i) j.

Section Share.
Variable W : N.
Hypothesis HW : (0 < W /\ W < 2 ^ 15)%N.
Context {T : Type}.
Notation key := (key W).
Notation wf := (wf W).
Notation heap := (heap T).
Implicit Types (h : heap).

Fixpoint addrs h (p : ptr) (t : trie T) : list nat :=
  match t, p with
  | Node _ _ _ _ _ l r, Some i =>
    match nth_error h i with Some n => i :: addrs h (hc0 n) l ++ addrs h (hc1 n) r | None => [] end
  | _, _ => []
  end.
Lemma addrs_nodes h : forall t p, denotes h p t -> length (addrs h p t) = node_count t.
Proof.
  clear HW.
  induction t as [|pr d s hh a l IHl r IHr]; intros p D; [reflexivity|].
  destruct (den_node _ _ _ _ _ _ _ _ _ D) as (i & c0 & c1 & -> & E & D0 & D1). cbn [addrs node_count]. rewrite E. cbn [length hc0 hc1].
  rewrite app_length, IHl, IHr; auto.
Qed.
Lemma addrs_reaches h : forall t p, denotes h p t -> forall i, In i (addrs h p t) <-> reaches h p i.
Proof.
  clear HW.
  induction t as [|pr d s hh a l IHl r IHr]; intros p D j.
  - cbn in D. subst p. cbn. split; [tauto|]. intros H. inversion H.
  - destruct (den_node _ _ _ _ _ _ _ _ _ D) as (i & c0 & c1 & -> & E & D0 & D1). cbn [addrs]. rewrite E. cbn [In hc0 hc1].
    rewrite in_app_iff, (IHl _ D0), (IHr _ D1). split.
    + intros [->|[H|H]]; [eapply reach_here; eauto|eapply reach_0; eauto|eapply reach_1; eauto].
    + intros H. inversion H; subst; rewrite E in *; try match goal with X : Some _ = Some _ |- _ => injection X as <- end; auto.
Qed.
Definition under h (i : nat) (k : list bool) : Prop := exists n, nth_error h i = Some n /\ pre k (key (hPrefix n)).
Lemma addrs_under h : forall t p k, denotes h p t -> wf k t -> forall i, In i (addrs h p t) -> under h i k.
Proof.
  clear HW.
  induction t as [|pr d s hh a l IHl r IHr]; intros p k D Hw j I; [contradiction|].
  destruct (den_node _ _ _ _ _ _ _ _ _ D) as (i & c0 & c1 & -> & E & D0 & D1). cbn [addrs] in I. rewrite E in I. cbn [In hc0 hc1] in I.
  cbn in Hw. destruct Hw as (_ & Hk & _ & _ & _ & Hl & Hr). destruct I as [<-|I]; [eexists; split; [exact E|exact Hk]|].
  apply in_app_iff in I. assert (X : exists b, under h j (key pr ++ [b])) by (destruct I as [I|I]; eauto).
  destruct X as (b & n & En & Kn). exists n. split; auto. eapply pre_trans; [exact Hk|]. eapply pre_trans; [apply pre_app_r|exact Kn].
Qed.
Lemma under_sides h i k x b y (z : Prop) : under h i (k ++ b :: x) -> under h i (k ++ negb b :: y) -> z.
Proof.
  clear HW.
  intros (n & E & H) (n' & E' & H'). exfalso. rewrite E in E'. injection E' as <-. destruct H as [u Hu], H' as [v Hv]. rewrite Hu in Hv.
  rewrite <- !app_assoc in Hv. apply app_inv_head in Hv. cbn in Hv. destruct b; discriminate.
Qed.
Lemma under_root h i n k b x : nth_error h i = Some n -> key (hPrefix n) = k -> under h i (k ++ b :: x) -> False.
Proof.
  clear HW.
  intros E K (n' & E' & [u H]). rewrite E in E'. injection E' as <-. rewrite K in H. apply (f_equal (@length bool)) in H.
  rewrite !app_length in H. cbn [length] in H. lia.
Qed.
Lemma under_pre h i k k' : pre k k' -> under h i k' -> under h i k.
Proof. intros P (n & E & H). exists n. split; auto. eapply pre_trans; eauto. Qed.
Lemma addrs_nodup h : forall t p k, denotes h p t -> wf k t -> NoDup (addrs h p t).
Proof.
  clear HW.
  induction t as [|pr d s hh a l IHl r IHr]; intros p k D Hw; [constructor|].
  destruct (den_node _ _ _ _ _ _ _ _ _ D) as (i & c0 & c1 & -> & E & D0 & D1). cbn [addrs]. rewrite E. cbn [hc0 hc1].
  cbn in Hw. destruct Hw as (_ & Hk & _ & _ & _ & Hl & Hr). constructor.
  - rewrite in_app_iff. intros [I|I]; [pose proof (addrs_under _ _ _ _ D0 Hl _ I) as U|pose proof (addrs_under _ _ _ _ D1 Hr _ I) as U];
      (eapply under_root; [exact E|reflexivity|exact U]).
  - assert (X : forall j, In j (addrs h c0 l) -> In j (addrs h c1 r) -> False).
    { intros j I0 I1. pose proof (addrs_under _ _ _ _ D0 Hl _ I0) as U0. pose proof (addrs_under _ _ _ _ D1 Hr _ I1) as U1. exact (under_sides _ _ _ _ _ _ _ U0 U1). }
    specialize (IHl _ _ D0 Hl). specialize (IHr _ _ D1 Hr). clear -IHl IHr X. induction IHl as [|x A Nx NA IH]; cbn in *; auto.
    constructor; [|apply IH; eauto]. rewrite in_app_iff. intros [I|I]; eauto.
Qed.
Lemma addrs_grow h h' : (forall i, i < length h -> nth_error h' i = nth_error h i) -> forall t p, denotes h p t -> addrs h' p t = addrs h p t.
Proof.
  clear HW.
  intros K. induction t as [|pr d s hh a l IHl r IHr]; intros p D; [reflexivity|].
  destruct (den_node _ _ _ _ _ _ _ _ _ D) as (i & c0 & c1 & -> & E & D0 & D1). cbn [addrs]. rewrite K by (apply nth_error_Some; congruence). rewrite E. cbn [hc0 hc1].
  rewrite IHl, IHr by auto. reflexivity.
Qed.
Lemma addrs_in S h : forall t p, repr S h p t -> forall i, In i (addrs h p t) -> S i.
Proof.
  clear HW.
  induction t as [|pr d s hh a l IHl r IHr]; intros p D j I; [contradiction|]. cbn [repr] in D.
  destruct D as (i & c0 & c1 & -> & Hi & E & D0 & D1). cbn [addrs] in I. rewrite E in I. cbn [In hc0 hc1] in I.
  destruct I as [<-|I]; auto. apply in_app_iff in I. destruct I; eauto.
Qed.
Lemma repr_addrs h : forall t p, denotes h p t -> forall (S : nat -> Prop), (forall i, In i (addrs h p t) -> S i) -> repr S h p t.
Proof.
  clear HW.
  induction t as [|pr d s hh a l IHl r IHr]; intros p D S HS; [exact D|].
  destruct (den_node _ _ _ _ _ _ _ _ _ D) as (i & c0 & c1 & -> & E & D0 & D1). cbn [addrs] in HS. rewrite E in HS. cbn [hc0 hc1 In] in HS.
  cbn [repr]. exists i, c0, c1. repeat split; auto; [apply IHl|apply IHr]; auto; intros j I; apply HS; right; apply in_app_iff; auto.
Qed.

(* the members of A that B lacks *)
Definition un (A B : list nat) : nat := length (filter (fun i => negb (existsb (Nat.eqb i) B)) A).
Lemma has_in i (B : list nat) : existsb (Nat.eqb i) B = true <-> In i B.
Proof. rewrite existsb_exists. split; [intros (x & H & E); apply Nat.eqb_eq in E; subst; auto|]. intros H. exists i. rewrite Nat.eqb_refl. auto. Qed.
Lemma has_not i (B : list nat) : existsb (Nat.eqb i) B = false <-> ~ In i B.
Proof. rewrite <- has_in. destruct (existsb _ _); split; congruence. Qed.
Lemma un_cons_out i A B : ~ In i B -> un (i :: A) B = 1 + un A B.
Proof. intros H. unfold un. cbn [filter]. rewrite (proj2 (has_not i B) H). reflexivity. Qed.
Lemma un_app A A' B : un (A ++ A') B = un A B + un A' B.
Proof. unfold un. rewrite filter_app, app_length. reflexivity. Qed.
Lemma un_ext A B B' : (forall i, In i A -> (In i B <-> In i B')) -> un A B = un A B'.
Proof.
  intros H. unfold un. f_equal. induction A as [|i A IH]; auto. cbn [filter].
  assert (E : existsb (Nat.eqb i) B = existsb (Nat.eqb i) B').
  { specialize (H i (or_introl eq_refl)). rewrite <- !has_in in H. destruct (existsb _ B), (existsb _ B'); tauto || (symmetry; tauto) || auto; exfalso; intuition congruence. }
  rewrite E, IH; [reflexivity|]. intros j I. apply H. right. exact I.
Qed.
Lemma un_nil A : un A [] = length A.
Proof. unfold un. induction A; cbn; auto. Qed.
Lemma un_disj A B : (forall i, In i A -> ~ In i B) -> un A B = length A.
Proof. intros H. rewrite <- un_nil. apply un_ext. intros i I. split; [intros X; elim (H i I X)|contradiction]. Qed.
Lemma un_le A B (L : list nat) : NoDup A -> (forall i, In i A -> ~ In i B -> In i L) -> un A B <= length L.
Proof.
  intros ND H. unfold un. apply NoDup_incl_length; [apply NoDup_filter; exact ND|]. intros i I. apply filter_In in I. destruct I as [I N].
  apply H; auto. apply has_not. destruct (existsb _ _); auto; discriminate.
Qed.

(* Diff enters no node that is in both trees *)
Lemma cost_diff_shared {S} (H : hHandler S) eq h : hSame H = None -> forall fuel l r pl pr k k' st, denotes h pl l -> denotes h pr r -> wf k l -> wf k' r ->
  atmost (2 * (un (addrs h pl l) (addrs h pr r) + un (addrs h pr r) (addrs h pl l))) 0 (@h_diff W T S fuel pl pr H eq st) h.
Proof.
  intros HS.
  assert (Z1 : forall n s s0, atmost s0 0 (@hi_Removed T S H n s) h) by (intros; unfold hi_Removed; destruct (hactive _); apply am_ret).
  assert (Z2 : forall n s s0, atmost s0 0 (@hi_Added T S H n s) h) by (intros; unfold hi_Added; destruct (hactive _); apply am_ret).
  assert (Z3 : forall n n' s s0, atmost s0 0 (@hi_Modified T S H eq n n' s) h).
  { intros. eapply am_mono; [apply (within_atmost 0 0)|lia|lia]. unfold hi_Modified.
    destruct (_ && _); [w1; destruct (negb _); [w1|]; destruct (hSame H); w1|]. destruct (hactive _); [w1|]. destruct (hactive _); w1. }
  assert (W7 : forall t : trie T, weight t Nil = node_count t) by (intros []; reflexivity). assert (W8 : forall t : trie T, weight Nil t = node_count t) by reflexivity.
  induction fuel as [|f IH]; intros l r pl pr k k' st Dl Dr Hl Hr.
  { cbn [h_diff]. apply am_lift. }
  destruct l as [|lp ld ls lh la ll lr].
  { pose proof (cost_diff W H eq h (Datatypes.S f) Nil r pl pr st Dl Dr) as C. eapply am_mono; [exact C| |lia]. cbn [addrs]. rewrite W8, un_nil, (addrs_nodes h r pr Dr). lia. }
  destruct r as [|rp rd rs rh ra rl rr].
  { pose proof (cost_diff W H eq h (Datatypes.S f) _ Nil pl pr st Dl Dr) as C. eapply am_mono; [exact C| |lia]. rewrite W7. replace (addrs h pr Nil) with (@nil nat) by reflexivity. rewrite un_nil, (addrs_nodes h _ pl Dl). lia. }
  pose proof (addrs_nodes h _ _ Dl) as CL. pose proof (addrs_nodes h _ _ Dr) as CR.
  pose proof (addrs_under h _ _ _ Dl Hl) as UL. pose proof (addrs_under h _ _ _ Dr Hr) as UR.
  set (X := Node lp ld ls lh la ll lr) in *. set (Y := Node rp rd rs rh ra rl rr) in *.
  destruct (den_node _ _ _ _ _ _ _ _ _ Dl) as (i & c0 & c1 & Epl & Ei & L0 & L1). destruct (den_node _ _ _ _ _ _ _ _ _ Dr) as (j & d0 & d1 & Epr & Ej & R0 & R1).
  assert (AX : addrs h pl X = i :: addrs h c0 ll ++ addrs h c1 lr) by (unfold X; rewrite Epl; cbn [addrs]; rewrite Ei; reflexivity).
  assert (AY : addrs h pr Y = j :: addrs h d0 rl ++ addrs h d1 rr) by (unfold Y; rewrite Epr; cbn [addrs]; rewrite Ej; reflexivity).
  assert (NX : node_count X = 1 + node_count ll + node_count lr) by reflexivity. assert (NY : node_count Y = 1 + node_count rl + node_count rr) by reflexivity.
  assert (WlX : wf (key lp) X) by (unfold X in *; cbn in Hl |- *; intuition; apply pre_refl). assert (WrY : wf (key rp) Y) by (unfold Y in *; cbn in Hr |- *; intuition; apply pre_refl).
  pose proof (addrs_under h _ _ _ Dl WlX) as VL. pose proof (addrs_under h _ _ _ Dr WrY) as VR.
  assert (Pl : wf_prefix W lp) by (unfold X in Hl; cbn in Hl; tauto). assert (Pr : wf_prefix W rp) by (unfold Y in Hr; cbn in Hr; tauto).
  assert (Wll : wf (key lp ++ [false]) ll) by (unfold X in Hl; cbn in Hl; tauto). assert (Wlr : wf (key lp ++ [true]) lr) by (unfold X in Hl; cbn in Hl; tauto).
  assert (Wrl : wf (key rp ++ [false]) rl) by (unfold Y in Hr; cbn in Hr; tauto). assert (Wrr : wf (key rp ++ [true]) rr) by (unfold Y in Hr; cbn in Hr; tauto).
  pose proof (addrs_under h _ _ _ L0 Wll) as U00. pose proof (addrs_under h _ _ _ L1 Wlr) as U01.
  pose proof (addrs_under h _ _ _ R0 Wrl) as U10. pose proof (addrs_under h _ _ _ R1 Wrr) as U11.
  cbn [h_diff]. destruct (ptr_eqb pl pr && _) eqn:EQ; [apply am_ret|].
  assert (NE : i <> j).
  { intros ->. rewrite Epl, Epr, HS in EQ. cbn in EQ. rewrite Nat.eqb_refl in EQ. discriminate. }
  clear EQ.
  assert (TL : forall s0 (m : prog T (S * bool)) l0 r0 l1 r1 a1 b1 a2 b2 w0 w1, readonly m -> atmost 0 0 m h ->
     (forall st, atmost w0 0 (@h_diff W T S f a1 b1 H eq st) h) -> (forall st, atmost w1 0 (@h_diff W T S f a2 b2 H eq st) h) ->
     denotes h a1 l0 -> denotes h b1 r0 -> denotes h a2 l1 -> denotes h b2 r1 -> w0 + w1 <= s0 ->
     atmost s0 0 (pbind m (fun '(st1, go) => if negb go then ret (st1, false) else
       pbind (h_diff W f a1 b1 H eq st1) (fun '(st2, go2) => if negb go2 then ret (st2, false) else
       pbind (h_diff W f a2 b2 H eq st2) (fun '(st3, go3) => if negb go3 then ret (st3, false) else ret (st3, true))))) h).
  { intros s0 m l0 r0 l1 r1 a1 b1 a2 b2 w0 w1 Ro Hm Q0 Q1 D1 D2 D3 D4 Hs. eapply am_reads_bind; [apply ro_run, Ro|exact Hm|lia|]. intros [s1 g1]. destruct (negb g1); [apply am_ret|].
    eapply am_reads_bind; [apply ro_run, ro_diff|apply Q0|lia|]. intros [s2 g2]. destruct (negb g2); [apply am_ret|].
    eapply am_reads_bind; [apply ro_run, ro_diff|apply Q1|lia|]. intros [s3 g3]. destruct (negb g3); apply am_ret. }
  assert (N0 : denotes h None (@Nil T)) by reflexivity.
  assert (CN : forall p t st, denotes h p t -> atmost (node_count t) 0 (@h_diff W T S f p None H eq st) h).
  { intros p t st0 D. rewrite <- W7. apply (cost_diff W H eq h f t Nil p None st0); auto. }
  assert (NC : forall p t st, denotes h p t -> atmost (node_count t) 0 (@h_diff W T S f None p H eq st) h).
  { intros p t st0 D. rewrite <- W8. apply (cost_diff W H eq h f Nil t None p st0); auto. }
  (* the cost, by cases of the comparison *)
  pose proof (Key.compare_spec W HW lp rp Pl Pr) as C. remember (compare W lp rp) as cr eqn:EC.
  rewrite Epl, Epr. rewrite Epl in AX, Dl, CL, UL, VL. rewrite Epr in AY, Dr, CR, UR, VR. clear Epl Epr pl pr.
  set (A := addrs h (Some i) X) in *. set (B := addrs h (Some j) Y) in *.
  set (A0 := addrs h c0 ll) in *. set (A1 := addrs h c1 lr) in *. set (B0 := addrs h d0 rl) in *. set (B1 := addrs h d1 rr) in *.
  assert (LA0 : length A0 = node_count ll) by (apply addrs_nodes; auto). assert (LA1 : length A1 = node_count lr) by (apply addrs_nodes; auto).
  assert (LB0 : length B0 = node_count rl) by (apply addrs_nodes; auto). assert (LB1 : length B1 = node_count rr) by (apply addrs_nodes; auto).
  assert (IA : forall z, In z A <-> i = z \/ In z A0 \/ In z A1) by (intros z; rewrite AX; cbn [In]; rewrite in_app_iff; tauto).
  assert (IB : forall z, In z B <-> j = z \/ In z B0 \/ In z B1) by (intros z; rewrite AY; cbn [In]; rewrite in_app_iff; tauto).
  assert (Ri : forall x y, key lp = x -> under h i (x ++ y :: []) -> False) by (intros x y Q U; eapply under_root; [exact Ei|exact Q|exact U]).
  assert (Rj : forall x y, key rp = x -> under h j (x ++ y :: []) -> False) by (intros x y Q U; eapply under_root; [exact Ej|exact Q|exact U]).
  destruct C as [E0|b x E0|b x E0|q b xa xb rev E1 E2 Er].
  - (* the same prefix *)
    rewrite <- E0 in *.
    assert (I1 : ~ In i B) by (rewrite IB; intros [Q|[Q|Q]]; [congruence|apply U10 in Q|apply U11 in Q]; eauto).
    assert (J1 : ~ In j A) by (rewrite IA; intros [Q|[Q|Q]]; [congruence|apply U00 in Q|apply U01 in Q]; eauto).
    assert (F1 : un A0 B = un A0 B0).
    { apply un_ext. intros z Hz. rewrite IB. split; [|tauto]. intros [<-|[Q|Q]]; auto; [elim J1; apply IA; auto|exact (under_sides _ _ _ _ _ _ _ (U00 _ Hz) (U11 _ Q))]. }
    assert (F2 : un A1 B = un A1 B1).
    { apply un_ext. intros z Hz. rewrite IB. split; [|tauto]. intros [<-|[Q|Q]]; auto; [elim J1; apply IA; auto|exact (under_sides _ _ _ _ _ _ _ (U01 _ Hz) (U10 _ Q))]. }
    assert (F3 : un B0 A = un B0 A0).
    { apply un_ext. intros z Hz. rewrite IA. split; [|tauto]. intros [<-|[Q|Q]]; auto; [elim I1; apply IB; auto|exact (under_sides _ _ _ _ _ _ _ (U10 _ Hz) (U01 _ Q))]. }
    assert (F4 : un B1 A = un B1 A1).
    { apply un_ext. intros z Hz. rewrite IA. split; [|tauto]. intros [<-|[Q|Q]]; auto; [elim I1; apply IB; auto|exact (under_sides _ _ _ _ _ _ _ (U11 _ Hz) (U00 _ Q))]. }
    assert (G1 : un A B = 1 + un A0 B0 + un A1 B1) by (rewrite AX, un_cons_out, un_app, F1, F2 by exact I1; lia).
    assert (G2 : un B A = 1 + un B0 A0 + un B1 A1) by (rewrite AY, un_cons_out, un_app, F3, F4 by exact J1; lia).
    rewrite G1, G2.
    eapply am_load; [exact Ei|lia|]. eapply am_load; [exact Ej|lia|]. cbn [hPrefix hc0 hc1]. rewrite <- EC. cbn beta iota zeta.
    eapply (TL _ _ ll rl lr rr); auto using ro_modified; [intros s0; eapply IH; eauto|intros s0; eapply IH; eauto|]. fold A0 A1 B0 B1. lia.
  - (* the left one contains the right one *)
    assert (VB : forall z, In z B -> under h z (key lp ++ [b])).
    { intros z Hz. eapply under_pre; [|apply VR; exact Hz]. rewrite E0. exists x. rewrite <- app_assoc. reflexivity. }
    assert (I1 : ~ In i B) by (intros Q; apply VB in Q; eauto).
    assert (G2 : un B A = un B (if b then A1 else A0)).
    { apply un_ext. intros z Hz. rewrite IA. split; [|destruct b; tauto]. intros [<-|Q]; [contradiction|]. pose proof (VB _ Hz) as V. destruct b, Q as [Q|Q]; auto.
      - exact (under_sides _ _ _ _ _ _ _ V (U00 _ Q)).
      - exact (under_sides _ _ _ _ _ _ _ V (U01 _ Q)). }
    assert (F : un (if b then A0 else A1) B = length (if b then A0 else A1)).
    { apply un_disj. intros z Hz Q. pose proof (VB _ Q) as V. destruct b.
      - exact (under_sides _ _ _ _ _ _ _ V (U00 _ Hz)).
      - exact (under_sides _ _ _ _ _ _ _ V (U01 _ Hz)). }
    assert (G1 : un A B = 1 + un A0 B + un A1 B) by (rewrite AX, un_cons_out, un_app by exact I1; lia).
    rewrite G1, G2.
    eapply am_load; [exact Ei|lia|]. eapply am_load; [exact Ej|lia|]. cbn [hPrefix hc0 hc1]. rewrite <- EC. cbn beta iota zeta. destruct b.
    + eapply (TL _ _ ll Nil lr Y); auto using ro_removed; [intros s0; apply CN; exact L0|intros s0; eapply IH; eauto|]. fold A0 A1 B. lia.
    + eapply (TL _ _ ll Y lr Nil); auto using ro_removed; [intros s0; eapply IH; eauto|intros s0; apply CN; exact L1|]. fold A0 A1 B. lia.
  - (* the right one contains the left one *)
    assert (VA : forall z, In z A -> under h z (key rp ++ [b])).
    { intros z Hz. eapply under_pre; [|apply VL; exact Hz]. rewrite E0. exists x. rewrite <- app_assoc. reflexivity. }
    assert (I1 : ~ In j A) by (intros Q; apply VA in Q; eauto).
    assert (G2 : un A B = un A (if b then B1 else B0)).
    { apply un_ext. intros z Hz. rewrite IB. split; [|destruct b; tauto]. intros [<-|Q]; [contradiction|]. pose proof (VA _ Hz) as V. destruct b, Q as [Q|Q]; auto.
      - exact (under_sides _ _ _ _ _ _ _ V (U10 _ Q)).
      - exact (under_sides _ _ _ _ _ _ _ V (U11 _ Q)). }
    assert (F : un (if b then B0 else B1) A = length (if b then B0 else B1)).
    { apply un_disj. intros z Hz Q. pose proof (VA _ Q) as V. destruct b.
      - exact (under_sides _ _ _ _ _ _ _ V (U10 _ Hz)).
      - exact (under_sides _ _ _ _ _ _ _ V (U11 _ Hz)). }
    assert (G1 : un B A = 1 + un B0 A + un B1 A) by (rewrite AY, un_cons_out, un_app by exact I1; lia).
    rewrite G1, G2.
    eapply am_load; [exact Ei|lia|]. eapply am_load; [exact Ej|lia|]. cbn [hPrefix hc0 hc1]. rewrite <- EC. cbn beta iota zeta. destruct b.
    + eapply (TL _ _ Nil rl X rr); auto using ro_added; [intros s0; apply NC; exact R0|intros s0; eapply IH; eauto|]. fold B0 B1 A. lia.
    + eapply (TL _ _ X rl Nil rr); auto using ro_added; [intros s0; eapply IH; eauto|intros s0; apply NC; exact R1|]. fold B0 B1 A. lia.
  - (* neither *)
    assert (DJ : forall z, In z A -> In z B -> False).
    { intros z Q R. pose proof (VL _ Q) as V. pose proof (VR _ R) as V'. rewrite E1 in V. rewrite E2 in V'. exact (under_sides _ _ _ _ _ _ _ V V'). }
    rewrite (un_disj A B), (un_disj B A) by eauto. rewrite CL, CR.
    eapply am_load; [exact Ei|lia|]. eapply am_load; [exact Ej|lia|]. cbn [hPrefix hc0 hc1]. rewrite <- EC. cbn beta iota zeta.
    destruct (if rev then b else negb b).
    + eapply (TL _ _ X Nil Nil Y); auto using ro_ret, am_ret; [intros s0; apply CN; exact Dl|intros s0; apply NC; exact Dr|]. lia.
    + eapply (TL _ _ Nil Y X Nil); auto using ro_ret, am_ret; [intros s0; apply NC; exact Dr|intros s0; apply CN; exact Dl|]. lia.
Qed.
End Share.
