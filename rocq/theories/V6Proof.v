(* V6Proof.v - the ipv6 expressions over uint128 pairs compute what the
   width-128 model computes on the numbers they represent. *)
From Verif Require Export V6 U128Proof SetNode.
From Coq Require Import Arith ZifyBool ZifyNat ZifyN.

Definition pnum (p : prefix6) : prefix := mkPrefix (num (paddr6 p)) (plen6 p).
Definition rnum (r : range6) : range := mkRange (num (rfirst6 r)) (num (rlast6 r)).
Definition wfp6 (p : prefix6) : Prop := wfu (paddr6 p).
Definition wfr6 (r : range6) : Prop := wfu (rfirst6 r) /\ wfu (rlast6 r).

Lemma zero_num : wfu (mkU 0 0) /\ num (mkU 0 0) = 0.
Proof. repeat split. Qed.
Lemma lengthToMask_num n : wfu (u_lengthToMask n) /\ num (u_lengthToMask n) = lengthToMask 128 n.
Proof. unfold u_lengthToMask, lengthToMask. destruct u_max_num as [A B]. rewrite <- B. apply u_shl_num; auto. Qed.

Lemma Network6_num p : wfp6 p -> wfp6 (Network6 p) /\ pnum (Network6 p) = Network 128 (pnum p).
Proof.
  intros H. destruct (lengthToMask_num (plen6 p)) as [A B].
  destruct (u_and_num (paddr6 p) _ H A) as [C D]. split; [exact C|].
  unfold pnum, Network, prefix_mask, Network6, prefix_mask6. cbn [paddr plen paddr6 plen6]. rewrite D, B. reflexivity.
Qed.
Lemma Host6_num p : wfp6 p -> wfp6 (Host6 p) /\ pnum (Host6 p) = Host 128 (pnum p).
Proof.
  intros H. destruct (lengthToMask_num (plen6 p)) as [A B]. destruct (u_not_num _ A) as [A' B'].
  destruct (u_and_num (paddr6 p) _ H A') as [C D]. split; [exact C|].
  unfold pnum, Host, prefix_mask, Host6, prefix_mask6. cbn [paddr plen paddr6 plen6]. rewrite D, B', B. reflexivity.
Qed.
Lemma UpperLimit6_num p : wfp6 p -> wfp6 (UpperLimit6 p) /\ pnum (UpperLimit6 p) = Broadcast 128 (pnum p).
Proof.
  intros H. destruct (lengthToMask_num (plen6 p)) as [A B]. destruct (u_not_num _ A) as [A' B'].
  destruct (u_or_num (paddr6 p) _ H A') as [C D]. split; [exact C|].
  unfold pnum, Broadcast, prefix_mask, UpperLimit6, prefix_mask6. cbn [paddr plen paddr6 plen6]. rewrite D, B', B. reflexivity.
Qed.
Lemma mask_length6_num m : wfu m -> u_mask_length m = mask_length 128 (num m).
Proof.
  intros H. unfold u_mask_length, mask_length. destruct (u_not_num m H) as [A B]. rewrite u_leadingZeros_num, B by auto. reflexivity.
Qed.
Lemma mask_valid6_num m : wfu m -> u_mask_valid m = mask_valid 128 (num m).
Proof. intros H. unfold u_mask_valid, mask_valid. rewrite mask_length6_num, u_onesCount_num by auto. reflexivity. Qed.
Lemma prefix_lt6_num p q : wfp6 p -> wfp6 q -> prefix_lt6 p q = prefix_lt 128 (pnum p) (pnum q).
Proof.
  intros Hp Hq. destruct (Network6_num p Hp) as [A1 B1]. destruct (Network6_num q Hq) as [A2 B2].
  destruct (Host6_num p Hp) as [A3 B3]. destruct (Host6_num q Hq) as [A4 B4].
  unfold prefix_lt6, prefix_lt, addr_lt. rewrite <- B1, <- B2, <- B3, <- B4.
  rewrite !u_eqb_num, !u_lt_num by auto. reflexivity.
Qed.
Lemma RangeFromAddresses6_num a b : wfu a -> wfu b ->
  wfr6 (fst (RangeFromAddresses6 a b)) /\
  (rnum (fst (RangeFromAddresses6 a b)), snd (RangeFromAddresses6 a b)) = RangeFromAddresses (num a) (num b).
Proof.
  intros Ha Hb. unfold RangeFromAddresses6, RangeFromAddresses, addr_lt. rewrite u_lt_num by auto.
  destruct (num b <? num a); split; try reflexivity; split; auto; split; reflexivity.
Qed.
Lemma prefix_range6_num p : wfp6 p -> wfr6 (prefix_range6 p) /\ rnum (prefix_range6 p) = prefix_range 128 (pnum p).
Proof.
  intros H. destruct (Network6_num p H) as [A B]. destruct (UpperLimit6_num p H) as [C D].
  destruct (RangeFromAddresses6_num _ _ A C) as [E F]. split; [exact E|].
  unfold prefix_range, prefix_range6. rewrite <- B, <- D. cbn [pnum paddr]. rewrite <- F. reflexivity.
Qed.
Lemma Halves6_num p : wfp6 p ->
  wfp6 (fst (Halves6 p)) /\ wfp6 (snd (Halves6 p)) /\
  (pnum (fst (Halves6 p)), pnum (snd (Halves6 p))) = Halves 128 (pnum p).
Proof.
  intros H. destruct (Network6_num p H) as [A B]. destruct u_top_num as [C D]. destruct (u_shr_num u_top (plen6 p) C) as [E F].
  destruct (u_or_num _ _ A E) as [G I]. unfold Halves6, Halves. cbn [pnum plen].
  destruct (plen6 p <? 128); cbn [fst snd].
  - split; [exact A|]. split; [exact G|]. fold (pnum p). rewrite <- B. cbn [pnum paddr plen]. unfold pnum; cbn [paddr6 plen6].
    rewrite I, F, D. reflexivity.
  - repeat split.
Qed.
Lemma minmax6_num a b : wfu a -> wfu b ->
  wfu (minAddress6 a b) /\ num (minAddress6 a b) = minAddress (num a) (num b) /\
  wfu (maxAddress6 a b) /\ num (maxAddress6 a b) = maxAddress (num a) (num b).
Proof.
  intros Ha Hb. unfold minAddress6, maxAddress6, minAddress, maxAddress, addr_lt. rewrite u_lt_num by auto.
  destruct (num a <? num b); auto.
Qed.
Lemma prev6_num r : wfr6 r -> wfu (range_prev6 r) /\ num (range_prev6 r) = range_prev 128 (rnum r).
Proof. intros [H _]. apply u_sub_num; auto. reflexivity. Qed.
Lemma next6_num r : wfr6 r -> wfu (range_next6 r) /\ num (range_next6 r) = range_next 128 (rnum r).
Proof. intros [_ H]. apply u_add_num; auto. reflexivity. Qed.
Lemma range_minus6_num a b : wfr6 a -> wfr6 b ->
  Forall wfr6 (range_minus6 a b) /\ map rnum (range_minus6 a b) = range_minus 128 (rnum a) (rnum b).
Proof.
  intros Ha Hb. destruct (prev6_num b Hb) as [A B]. destruct (next6_num b Hb) as [C D].
  destruct Ha as [Ha1 Ha2], Hb as [Hb1 Hb2].
  destruct (minmax6_num _ _ A Ha2) as (E1 & E2 & _ & _). destruct (minmax6_num _ _ Ha1 C) as (_ & _ & F1 & F2).
  assert (M1 : rnum (mkRange6 (rfirst6 a) (minAddress6 (range_prev6 b) (rlast6 a))) =
     mkRange (rfirst (rnum a)) (minAddress (range_prev 128 (rnum b)) (rlast (rnum a)))).
  { rewrite <- B. unfold rnum; cbn [rfirst6 rlast6 rfirst rlast]. rewrite E2. reflexivity. }
  assert (M2 : rnum (mkRange6 (maxAddress6 (rfirst6 a) (range_next6 b)) (rlast6 a)) =
     mkRange (maxAddress (rfirst (rnum a)) (range_next 128 (rnum b))) (rlast (rnum a))).
  { rewrite <- D. unfold rnum; cbn [rfirst6 rlast6 rfirst rlast]. rewrite F2. reflexivity. }
  unfold range_minus6, range_minus. rewrite <- M1, <- M2. unfold addr_lt. rewrite !u_lt_num by auto. cbn [rnum rfirst rlast].
  assert (W1 : wfr6 (mkRange6 (rfirst6 a) (minAddress6 (range_prev6 b) (rlast6 a)))) by (split; auto).
  assert (W2 : wfr6 (mkRange6 (maxAddress6 (rfirst6 a) (range_next6 b)) (rlast6 a))) by (split; auto).
  destruct (num (rfirst6 a) <? num (rfirst6 b)), (num (rlast6 b) <? num (rlast6 a)); cbn [app map]; split; auto.
Qed.
Lemma range_plus6_num a b : wfr6 a -> wfr6 b ->
  Forall wfr6 (range_plus6 a b) /\ map rnum (range_plus6 a b) = range_plus 128 (rnum a) (rnum b).
Proof.
  assert (P : forall a b, wfr6 a -> wfr6 b ->
    let x := if u_lt (range_next6 a) (rfirst6 b) then [a; b] else [mkRange6 (rfirst6 a) (maxAddress6 (rlast6 a) (rlast6 b))] in
    Forall wfr6 x /\ map rnum x = if addr_lt (range_next 128 (rnum a)) (rfirst (rnum b)) then [rnum a; rnum b]
       else [mkRange (rfirst (rnum a)) (maxAddress (rlast (rnum a)) (rlast (rnum b)))]).
  { intros x y Hx Hy. destruct (next6_num x Hx) as [C D]. cbv zeta. unfold addr_lt. rewrite u_lt_num by (auto; apply Hy).
    rewrite D. cbn [rnum rfirst rlast]. destruct (minmax6_num (rlast6 x) (rlast6 y) ltac:(apply Hx) ltac:(apply Hy)) as (_ & _ & F1 & F2).
    assert (W1 : wfr6 (mkRange6 (rfirst6 x) (maxAddress6 (rlast6 x) (rlast6 y)))) by (split; [apply Hx|exact F1]).
    destruct (range_next 128 _ <? _); (split; [solve [auto]|]).
    - reflexivity.
    - cbn [map]. unfold rnum; cbn [rfirst6 rlast6]. rewrite F2. reflexivity. }
  intros Ha Hb. unfold range_plus6, range_plus. cbn [rnum rfirst rlast].
  rewrite u_lt_num by (try apply Ha; try apply Hb). unfold addr_lt at 1.
  destruct (num (rfirst6 a) <? num (rfirst6 b)); apply P; auto.
Qed.
Lemma contains6_num p q : wfp6 p -> wfp6 q -> contains6 p q = contains 128 (pnum p) (pnum q).
Proof.
  intros Hp Hq. unfold contains6, contains. cbn [pnum paddr plen].
  destruct u_max_num as [M1 M2]. destruct u_top_num as [T1 T2].
  destruct (u_shl_num u_max (wsub 32 128 (plen6 p)) M1) as [S1 S2]. rewrite M2 in S2.
  destruct (u_and_num _ _ Hp S1) as [A1 A2]. destruct (u_and_num _ _ Hq S1) as [B1 B2].
  destruct (u_xor_num _ _ Hp Hq) as [X1 X2].
  rewrite u_eqb_num by auto. rewrite A2, B2, S2. rewrite u_leadingZeros_num, X2 by auto.
  set (common := if _ =? _ then _ else _).
  destruct (u_shr_num u_top common T1) as [P1 P2]. rewrite T2 in P2.
  destruct (u_and_num _ _ Hq P1) as [C1 C2]. rewrite u_eqb_num by (auto; split; reflexivity). rewrite C2, P2.
  reflexivity.
Qed.
Lemma compare6_num p q : wfp6 p -> wfp6 q -> compare6 p q = compare 128 (pnum p) (pnum q).
Proof. intros Hp Hq. unfold compare6, compare. rewrite !contains6_num by auto. reflexivity. Qed.
Lemma join_prefix6_num p n : wfp6 p -> wfp6 (join_prefix6 p n) /\ pnum (join_prefix6 p n) = join_prefix 128 (pnum p) n.
Proof.
  intros H. destruct u_max_num as [M1 M2]. destruct (u_shr_num u_max n M1) as [S1 S2]. rewrite M2 in S2.
  destruct (u_not_num _ S1) as [N1 N2]. destruct (u_and_num _ _ H N1) as [A1 A2]. split; [exact A1|].
  unfold join_prefix, join_prefix6, pnum. cbn [paddr plen paddr6 plen6]. rewrite A2, N2, S2. reflexivity.
Qed.
(* one unfolding of setNodeFromRange over pairs agrees with one unfolding of from_range *)
Lemma from_range6_step peq fuel r : wfr6 r ->
  from_range 128 peq (S fuel) (rnum r) =
  match range_split6 r with
  | inl p => Ok (setNodeFromPrefix (pnum p))
  | inr (x, y) => a <- from_range 128 peq fuel (rnum x) ;; b <- from_range 128 peq fuel (rnum y) ;; Union 128 peq a b
  end /\
  match range_split6 r with inl p => wfp6 p | inr (x, y) => wfr6 x /\ wfr6 y end.
Proof.
  intros [Hf Hl]. destruct u_max_num as [M1 M2]. destruct u_top_num as [T1 T2].
  destruct (u_xor_num _ _ Hf Hl) as [X1 X2]. destruct (u_not_num _ X1) as [N1 N2]. rewrite X2 in N2.
  unfold range_split6. cbn [from_range rnum rfirst rlast].
  rewrite u_leadingZeros_num, u_onesCount_num, X2, N2 by auto.
  set (k := clz 128 _).
  destruct (u_shl_num u_max (128 - k) M1) as [S1 S2]. rewrite M2 in S2.
  destruct (u_and_num _ _ Hf S1) as [A1 A2].
  destruct (u_shr_num u_top k T1) as [R1 R2]. rewrite T2 in R2.
  destruct (u_or_num _ _ A1 R1) as [O1 O2]. destruct (u_sub_num _ 1 O1 ltac:(reflexivity)) as [Q1 Q2].
  destruct (k =? _).
  - split; [reflexivity|exact Hf].
  - split.
    + unfold rnum at 1 2. cbn [rfirst6 rlast6]. rewrite Q2, O2, A2, R2, S2. reflexivity.
    + repeat split; cbn [rfirst6 rlast6]; try apply Hf; try apply Hl; try apply Q1; try apply O1.
Qed.
