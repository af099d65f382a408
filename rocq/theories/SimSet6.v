(* SimSet6.v - simulation of ipv6/setnode.go and ipv6/set.go over uint128 structs
   (SetNode6.v, SetApi6.v) by the width-128 instance of SetNode.v, SetApi.v. *)
From Verif Require Export Sim6 SetApi6 SetApi.
From Coq Require Import Arith Lia ZifyBool ZifyNat ZifyN.

Lemma ts_leaf p6 p : psim p6 p -> tsim (setNodeFromPrefix6 p6) (setNodeFromPrefix p).
Proof. intros P. constructor; [exact P|constructor|constructor]. Qed.
Lemma halves_sim p6 p : psim p6 p -> pairsim (tsim (T:=unit)) tsim (halves6 p6) (halves 128 p).
Proof.
  intros [P ->]. destruct (Halves6_num p6 P) as (A & B & C). unfold halves6, halves.
  destruct (Halves6 p6) as [x y], (Halves 128 (pnum p6)) as [u v]. cbn [fst snd] in *.
  injection C as C1 C2. split; cbn [fst snd]; apply ts_leaf; split; auto.
Qed.
Lemma psim_mk6 (p6 : prefix6) p : psim p6 p -> psim (mkPrefix6 (paddr6 p6) (plen6 p6)) (mkPrefix (paddr p) (plen p)).
Proof. apply psim_mk. Qed.
Lemma psim_rebuild p6 p n : psim p6 p -> psim (mkPrefix6 (paddr6 p6) n) (mkPrefix (paddr p) n).
Proof. intros [H ->]. split; [exact H|reflexivity]. Qed.

Section SimSet.
Variable peq6 : snode6 -> snode6 -> bool.
Variable peq : snode -> snode -> bool.
Hypothesis Hpeq : forall a6 a b6 b, tsim a6 a -> tsim b6 b -> peq6 a6 b6 = peq a b.
Local Notation tsim := (@tsim unit).

Lemma newHead_sim p6 p l6 l r6 r : psim p6 p -> tsim l6 l -> tsim r6 r -> rsim tsim (newHead6 p6 l6 r6) (newHead p l r).
Proof. intros. apply tsim_mk_opt; assumption. Qed.

Lemma union_sim f : forall m6 m o6 o, tsim m6 m -> tsim o6 o -> rsim tsim (union6 peq6 f m6 o6) (union 128 peq f m o).
Proof.
  induction f as [|f IH]; intros m6 m o6 o M O; [exact I|]. cbn [union6 union].
  rewrite (Hpeq _ _ _ _ M O). destruct (peq m o); [exact M|].
  pose proof M as M0. pose proof O as O0.
  destruct M as [|mp6 mp md ms mh ma ml6 ml mr6 mr MP ML MR]; destruct O as [|op6 op od os oh oa ol6 ol or6 or OP OL OR];
    try exact M0; try exact O0.
  rewrite (psim_compare _ _ _ _ MP OP). destruct (compare 128 mp op) as [[[result reversed] common] child].
  assert (SUPER : forall s6 s b6 b, tsim s6 s -> tsim b6 b ->
    rsim tsim (if active6 s6 then Ok s6 else
       '(lft, rgt) <- (if child then (x <- union6 peq6 f (child16 s6) b6 ;; Ok (child06 s6, x))
               else (x <- union6 peq6 f (child06 s6) b6 ;; Ok (x, child16 s6))) ;;
        newHead6 (mkPrefix6 (paddr6 (prefix_of6 s6)) (plen6 (prefix_of6 s6))) lft rgt)
      (if active s then Ok s else
       '(lft, rgt) <- (if child then (x <- union 128 peq f (child1 s) b ;; Ok (child0 s, x))
               else (x <- union 128 peq f (child0 s) b ;; Ok (x, child1 s))) ;;
        newHead (mkPrefix (paddr (prefix_of s)) (plen (prefix_of s))) lft rgt)).
  { intros s6 s b6 b HS HB. rewrite (tsim_active _ _ HS). destruct (active s); [exact HS|].
    apply (rsim_bind (pairsim tsim tsim)).
    - destruct child.
      + apply (rsim_bind tsim); [apply IH; [apply tsim_child1|]; assumption|]. intros x6 x X. split; cbn [fst snd]; [apply tsim_child0; exact HS|exact X].
      + apply (rsim_bind tsim); [apply IH; [apply tsim_child0|]; assumption|]. intros x6 x X. split; cbn [fst snd]; [exact X|apply tsim_child1; exact HS].
    - intros [x6 y6] [x y] [X Y]. cbn [fst snd] in *. apply newHead_sim; auto. apply psim_mk. apply tsim_prefix. exact HS. }
  destruct result.
  - destruct ma; [exact M0|]. destruct oa; [exact O0|].
    apply (rsim_bind tsim); [apply IH; assumption|]. intros x6 x X. apply (rsim_bind tsim); [apply IH; assumption|]. intros y6 y Y.
    rewrite (Hpeq _ _ _ _ X ML), (Hpeq _ _ _ _ Y MR). destruct (peq x ml && peq y mr); [exact M0|]. apply newHead_sim; auto. apply psim_mk. exact MP.
  - destruct reversed; apply SUPER; assumption.
  - destruct reversed; apply SUPER; assumption.
  - destruct (xorb child reversed); apply newHead_sim; auto; apply psim_join; exact MP.
Qed.
Lemma Union_sim m6 m o6 o : tsim m6 m -> tsim o6 o -> rsim tsim (Union6 peq6 m6 o6) (Union 128 peq m o).
Proof. intros. apply union_sim; assumption. Qed.

Lemma from_range_sim f : forall r6 r, rgsim r6 r -> rsim tsim (from_range6 peq6 f r6) (from_range 128 peq f r).
Proof.
  induction f as [|f IH]; intros r6 r [R ->]; [exact I|].
  destruct (from_range6_step peq f r6 R) as [E W]. rewrite E. cbn [from_range6]. destruct (range_split6 r6) as [p|[x y]].
  - apply ts_leaf. split; [exact W|reflexivity].
  - destruct W as [WX WY]. apply (rsim_bind tsim); [apply IH; split; auto|]. intros a6 a A.
    apply (rsim_bind tsim); [apply IH; split; auto|]. intros b6 b B. apply Union_sim; assumption.
Qed.
Lemma setNodeFromRange_sim r6 r : rgsim r6 r -> rsim tsim (setNodeFromRange6 peq6 r6) (setNodeFromRange 128 peq r).
Proof. apply from_range_sim. Qed.

Lemma difference_sim f : forall m6 m o6 o, tsim m6 m -> tsim o6 o -> rsim tsim (difference6 peq6 f m6 o6) (difference 128 peq f m o).
Proof.
  induction f as [|f IH]; intros m6 m o6 o M O; [exact I|]. cbn [difference6 difference].
  pose proof M as M0. pose proof O as O0.
  destruct M as [|mp6 mp md ms mh ma ml6 ml mr6 mr MP ML MR]; destruct O as [|op6 op od os oh oa ol6 ol or6 or OP OL OR];
    try exact M0; try exact O0.
  rewrite (psim_compare _ _ _ _ MP OP). destruct (compare 128 mp op) as [[[result reversed] common] child].
  assert (INNER : rsim tsim
     (lft <- difference6 peq6 f ml6 (Node6 op6 od os oh oa ol6 or6) ;; rgt <- difference6 peq6 f mr6 (Node6 op6 od os oh oa ol6 or6) ;;
      if peq6 lft ml6 && peq6 rgt mr6 then Ok (Node6 mp6 md ms mh ma ml6 mr6) else Union6 peq6 lft rgt)
     (lft <- difference 128 peq f ml (Node op od os oh oa ol or) ;; rgt <- difference 128 peq f mr (Node op od os oh oa ol or) ;;
      if peq lft ml && peq rgt mr then Ok (Node mp md ms mh ma ml mr) else Union 128 peq lft rgt)).
  { apply (rsim_bind tsim); [apply IH; assumption|]. intros x6 x X. apply (rsim_bind tsim); [apply IH; assumption|]. intros y6 y Y.
    rewrite (Hpeq _ _ _ _ X ML), (Hpeq _ _ _ _ Y MR). destruct (peq x ml && peq y mr); [exact M0|]. apply Union_sim; assumption. }
  pose proof (halves_sim mp6 mp MP) as HH. destruct (halves6 mp6) as [h06 h16], (halves 128 mp) as [h0 h1]. destruct HH as [H0 H1]. cbn [fst snd] in *.
  destruct result.
  - destruct ma; cbn [negb]; [|apply INNER]. destruct oa; [constructor|].
    apply (rsim_bind tsim); [apply IH; assumption|]. intros x6 x X. apply (rsim_bind tsim); [apply IH; assumption|]. intros y6 y Y. apply Union_sim; assumption.
  - destruct ma; cbn [negb]; [|apply INNER].
    apply (rsim_bind tsim); [destruct child; apply IH; assumption|]. intros x6 x X. destruct child; apply Union_sim; assumption.
  - destruct oa; [constructor|]. apply IH; [exact M0|apply tsim_kid; assumption].
  - exact M0.
Qed.
Lemma Difference_sim m6 m o6 o : tsim m6 m -> tsim o6 o -> rsim tsim (Difference6 peq6 m6 o6) (Difference 128 peq m o).
Proof. intros. apply difference_sim; assumption. Qed.

Lemma intersect_sim f : forall m6 m o6 o, tsim m6 m -> tsim o6 o -> rsim tsim (intersect6 peq6 f m6 o6) (intersect 128 peq f m o).
Proof.
  induction f as [|f IH]; intros m6 m o6 o M O; [exact I|]. cbn [intersect6 intersect].
  pose proof M as M0. pose proof O as O0.
  destruct M as [|mp6 mp md ms mh ma ml6 ml mr6 mr MP ML MR]; destruct O as [|op6 op od os oh oa ol6 ol or6 or OP OL OR]; try constructor.
  rewrite (psim_compare _ _ _ _ MP OP). destruct (compare 128 mp op) as [[[result reversed] common] child].
  assert (K : rsim tsim
    (if negb ma then x <- intersect6 peq6 f (Node6 op6 od os oh oa ol6 or6) ml6 ;; y <- intersect6 peq6 f (Node6 op6 od os oh oa ol6 or6) mr6 ;; Union6 peq6 x y
     else if negb oa then x <- intersect6 peq6 f (Node6 mp6 md ms mh ma ml6 mr6) ol6 ;; y <- intersect6 peq6 f (Node6 mp6 md ms mh ma ml6 mr6) or6 ;; Union6 peq6 x y
     else if reversed then Ok (Node6 mp6 md ms mh ma ml6 mr6) else Ok (Node6 op6 od os oh oa ol6 or6))
    (if negb ma then x <- intersect 128 peq f (Node op od os oh oa ol or) ml ;; y <- intersect 128 peq f (Node op od os oh oa ol or) mr ;; Union 128 peq x y
     else if negb oa then x <- intersect 128 peq f (Node mp md ms mh ma ml mr) ol ;; y <- intersect 128 peq f (Node mp md ms mh ma ml mr) or ;; Union 128 peq x y
     else if reversed then Ok (Node mp md ms mh ma ml mr) else Ok (Node op od os oh oa ol or))).
  { destruct ma; cbn [negb].
    - destruct oa; cbn [negb]; [destruct reversed; assumption|].
      apply (rsim_bind tsim); [apply IH; assumption|]. intros x6 x X. apply (rsim_bind tsim); [apply IH; assumption|]. intros y6 y Y. apply Union_sim; assumption.
    - apply (rsim_bind tsim); [apply IH; assumption|]. intros x6 x X. apply (rsim_bind tsim); [apply IH; assumption|]. intros y6 y Y. apply Union_sim; assumption. }
  destruct result; try exact K. constructor.
Qed.
Lemma Intersect_sim m6 m o6 o : tsim m6 m -> tsim o6 o -> rsim tsim (Intersect6 peq6 m6 o6) (Intersect 128 peq m o).
Proof. intros. apply intersect_sim; assumption. Qed.
Lemma snode_Equal_sim m6 m o6 o : tsim m6 m -> tsim o6 o -> rsim eq (snode_Equal6 peq6 m6 o6) (snode_Equal peq m o).
Proof. intros. apply Equal_sim; assumption. Qed.

(* ---- FindSmallestContainingPrefix ---- *)
Definition opsim : option prefix6 -> option prefix -> Prop := optsim psim.
Lemma best_sim l6 l r6 r n : rsim opsim l6 l -> rsim opsim (r6 tt) (r tt) -> rsim opsim (best6 l6 r6 n) (best l r n).
Proof.
  intros L R. unfold best6, best. apply (rsim_bind opsim); [exact L|]. intros [p6|] [p|] P; try contradiction P.
  - cbn in P. rewrite (psim_len _ _ P). destruct (plen p =? n); [exact P|].
    apply (rsim_bind opsim); [exact R|]. intros [q6|] [q|] Q; try contradiction Q; [|exact P]. cbn in Q. rewrite (psim_len _ _ Q).
    destruct (plen p <? plen q); assumption.
  - apply (rsim_bind opsim); [exact R|]. intros [q6|] [q|] Q; try contradiction Q; exact Q.
Qed.
Lemma findSmallest_sim n m6 m : tsim m6 m -> rsim opsim (findSmallest6 m6 n) (findSmallest m n).
Proof.
  induction 1 as [|q6 q dd s h a l6 l r6 r Q L IHL R IHR]; cbn [findSmallest6 findSmallest]; [exact I|].
  rewrite (psim_len _ _ Q). destruct (n <? plen q); [exact I|]. destruct ((n =? plen q) && a); [exact Q|].
  apply (rsim_bind opsim); [apply best_sim; assumption|]. intros [x6|] [x|] X; try contradiction X; [exact X|].
  destruct a; cbn [negb]; [exact Q|exact I].
Qed.
Lemma findSmallestR_sim n f : forall m6 m o6 o, tsim m6 m -> tsim o6 o -> rsim opsim (findSmallestR6 f m6 o6 n) (findSmallestR 128 f m o n).
Proof.
  induction f as [|f IH]; intros m6 m o6 o M O; [exact I|]. cbn [findSmallestR6 findSmallestR].
  pose proof M as M0. pose proof O as O0.
  destruct M as [|mp6 mp md ms mh ma ml6 ml mr6 mr MP ML MR]; [exact I|]. rewrite (psim_len _ _ MP). destruct (n <? plen mp); [exact I|].
  destruct O as [|op6 op od os oh oa ol6 ol or6 or OP OL OR]; [apply findSmallest_sim; exact M0|].
  rewrite (psim_compare _ _ _ _ MP OP). destruct (compare 128 mp op) as [[[result reversed] common] child].
  pose proof (halves_sim mp6 mp MP) as HH. destruct (halves6 mp6) as [h06 h16], (halves 128 mp) as [h0 h1]. destruct HH as [H0 H1]. cbn [fst snd] in *.
  destruct result.
  - destruct ma; cbn [negb]; [|apply best_sim; apply IH; assumption]. destruct oa; [exact I|]. apply best_sim; apply IH; assumption.
  - destruct ma; cbn [negb]; [|apply best_sim; apply IH; assumption].
    apply best_sim; [apply findSmallest_sim|apply IH]; try assumption; destruct child; assumption.
  - destruct oa; [exact I|]. apply IH; [exact M0|apply tsim_kid; assumption].
  - apply findSmallest_sim. exact M0.
Qed.

(* ---- the API of ipv6/set.go ---- *)
Inductive sisim : SetI6 -> SetI -> Prop :=
| si_addr a : wfu a -> sisim (AddressSet6 a) (AddressSet (num a))
| si_prefix p6 p : psim p6 p -> sisim (PrefixSet6 p6) (PrefixSet p)
| si_range r6 r : rgsim r6 r -> sisim (RangeSet6 r6) (RangeSet r)
| si_set s6 s : tsim s6 s -> sisim (TheSet6 s6) (TheSet s)
| si_set_ s6 s : optsim tsim s6 s -> sisim (TheSet_6 s6) (TheSet_ s).

Lemma set__Set_sim m6 m : optsim tsim m6 m -> tsim (set__Set6 m6) (set__Set m).
Proof. destruct m6, m; cbn; try contradiction; auto. intros _. constructor. Qed.
Lemma asSet_sim i6 i : sisim i6 i -> rsim tsim (asSet6 peq6 i6) (asSet 128 peq i).
Proof.
  destruct 1; cbn [asSet6 asSet].
  - apply ts_leaf. split; [assumption|reflexivity].
  - apply ts_leaf. assumption.
  - apply setNodeFromRange_sim. assumption.
  - assumption.
  - apply set__Set_sim. assumption.
Qed.
Lemma setI_sim i6 i : optsim sisim i6 i -> rsim tsim (setI6 peq6 i6) (setI 128 peq i).
Proof. destruct i6, i; cbn [optsim setI6 setI]; try contradiction; [apply asSet_sim|constructor]. Qed.
Lemma set_IsEmpty_sim s6 s : tsim s6 s -> set_IsEmpty6 s6 = set_IsEmpty 128 s.
Proof. intros H. unfold set_IsEmpty6, set_IsEmpty. change (128 =? 32) with false. apply IsEmpty_sim. exact H. Qed.
Lemma set_Union_sim s6 s o6 o : tsim s6 s -> optsim sisim o6 o -> rsim tsim (set_Union6 peq6 s6 o6) (set_Union 128 peq s o).
Proof. intros S O. apply (rsim_bind tsim); [apply setI_sim; exact O|]. intros. apply Union_sim; assumption. Qed.
Lemma set_Intersection_sim s6 s o6 o : tsim s6 s -> optsim sisim o6 o -> rsim tsim (set_Intersection6 peq6 s6 o6) (set_Intersection 128 peq s o).
Proof. intros S O. apply (rsim_bind tsim); [apply setI_sim; exact O|]. intros. apply Intersect_sim; assumption. Qed.
Lemma set_Difference_sim s6 s o6 o : tsim s6 s -> optsim sisim o6 o -> rsim tsim (set_Difference6 peq6 s6 o6) (set_Difference 128 peq s o).
Proof. intros S O. apply (rsim_bind tsim); [apply setI_sim; exact O|]. intros. apply Difference_sim; assumption. Qed.
Lemma set_Contains_sim s6 s o6 o : tsim s6 s -> optsim sisim o6 o -> rsim eq (set_Contains6 peq6 s6 o6) (set_Contains 128 peq s o).
Proof.
  intros S O. apply (rsim_bind tsim); [apply setI_sim; exact O|]. intros x6 x X. apply (rsim_bind tsim); [apply Difference_sim; assumption|].
  intros d6 d D. apply set_IsEmpty_sim. exact D.
Qed.
Lemma set_Equal_sim s6 s o6 o : tsim s6 s -> tsim o6 o -> rsim eq (set_Equal6 peq6 s6 o6) (set_Equal peq s o).
Proof. intros. apply snode_Equal_sim; assumption. Qed.
Lemma set_WalkPrefixes_sim {S6 S} (RS : S6 -> S -> Prop) f6 f s6 s st6 st :
  (forall p6 p x6 x, psim p6 p -> RS x6 x -> ssim RS (f6 p6 x6) (f p x)) -> tsim s6 s -> RS st6 st ->
  rsim (ssim RS) (set_WalkPrefixes6 peq6 s6 f6 st6) (set_WalkPrefixes 128 peq s f st).
Proof. intros F H R. apply (Walk_sim peq6 peq Hpeq RS); auto. intros p6 p d x6 x P X. apply F; assumption. Qed.
Lemma set_NumPrefixes_sim s6 s n : tsim s6 s -> rsim eq (set6_NumPrefixes peq6 s6 n) (set_NumPrefixes 128 peq s n).
Proof.
  intros H. unfold set_NumPrefixes. change (128 =? 32) with false. cbv iota. unfold set6_NumPrefixes, set_NumPrefixes6.
  apply (rsim_bind (ssim eq)); [|intros [x6 b6] [x b] [X _]; exact X].
  apply set_WalkPrefixes_sim; [|exact H|reflexivity]. intros p6 p [c e] x P <-.
  unfold prefix6_NumPrefixes, prefix_num_prefixes6. rewrite (psim_len _ _ P). destruct (128 <? n); [split; reflexivity|].
  destruct (n <? plen p).
  - destruct (N.ones 64 - 0 <? c); split; reflexivity.
  - destruct (63 <? n - plen p); [split; reflexivity|]. destruct (N.ones 64 - 2 ^ (n - plen p) <? c); split; reflexivity.
Qed.
Lemma prefix_range_sim p6 p : psim p6 p -> rgsim (prefix_range6 p6) (prefix_range 128 p).
Proof. intros [P ->]. destruct (prefix_range6_num p6 P) as [A B]. split; [exact A|symmetry; exact B]. Qed.
Lemma rglist a b : Forall wfr6 a -> map rnum a = b -> Forall2 rgsim a b.
Proof. intros F <-. induction F as [|x l X F IH]; cbn [map]; constructor; auto. split; [exact X|reflexivity]. Qed.
Lemma range_plus_sim a6 a b6 b : rgsim a6 a -> rgsim b6 b -> Forall2 rgsim (range_plus6 a6 b6) (range_plus 128 a b).
Proof. intros [A ->] [B ->]. destruct (range_plus6_num a6 b6 A B) as [F E]. apply rglist; assumption. Qed.
Lemma set_WalkRanges_sim {S6 S} (RS : S6 -> S -> Prop) f6 f s6 s st6 st :
  (forall r6 r x6 x, rgsim r6 r -> RS x6 x -> ssim RS (f6 r6 x6) (f r x)) -> tsim s6 s -> RS st6 st ->
  rsim (ssim RS) (set_WalkRanges6 peq6 s6 f6 st6) (set_WalkRanges 128 peq s f st).
Proof.
  intros F H R. unfold set_WalkRanges6, set_WalkRanges.
  apply (rsim_bind (ssim (pairsim (Forall2 rgsim) RS))).
  - apply set_WalkPrefixes_sim; [|exact H|split; [constructor|exact R]].
    intros p6 p [l6 x6] [l x] P [L X]. cbn [fst snd] in *.
    assert (L1 : Forall2 rgsim (match l6 with [] => [prefix_range6 p6] | r0 :: _ => range_plus6 (prefix_range6 p6) r0 end)
                               (match l with [] => [prefix_range 128 p] | r0 :: _ => range_plus 128 (prefix_range 128 p) r0 end)).
    { destruct L; [constructor; [apply prefix_range_sim; exact P|constructor]|]. apply range_plus_sim; [apply prefix_range_sim; exact P|assumption]. }
    destruct L1 as [|a6 a ? ? A [|b6 b ? ? B [|]]]; try solve [split; [split; cbn [fst snd]; auto|reflexivity]].
    pose proof (F a6 a x6 x A X) as Y. destruct (f6 a6 x6) as [y6 g6], (f a x) as [y g]. destruct Y as [Y G]. cbn [fst snd] in *. subst g6.
    destruct (negb g); split; cbn [fst snd]; auto; split; cbn [fst snd]; auto.
  - intros [[l6 x6] b6] [[l x] b] [[L X] B]. cbn [fst snd] in *. subst b6. destruct (negb b); [split; [exact X|reflexivity]|].
    destruct L as [|a6 a ? ? A [|]]; try solve [split; [exact X|reflexivity]].
    pose proof (F a6 a x6 x A X) as Y. destruct (f6 a6 x6) as [y6 g6], (f a x) as [y g]. destruct Y as [Y G]. cbn [fst snd] in *. subst g6.
    destruct (negb g); split; auto.
Qed.
Lemma set_FindAvailablePrefix_sim s6 s o6 o n : tsim s6 s -> optsim sisim o6 o ->
  rsim opsim (set_FindAvailablePrefix6 peq6 s6 o6 n) (set_FindAvailablePrefix 128 peq s o n).
Proof.
  intros S O. destruct o6 as [i6|], o as [i|]; try contradiction O; [|exact I]. cbn [set_FindAvailablePrefix6 set_FindAvailablePrefix].
  apply (rsim_bind tsim); [apply asSet_sim; exact O|]. intros t6 t X. apply (rsim_bind opsim); [apply findSmallestR_sim; assumption|].
  intros [p6|] [p|] P; try contradiction P; [|exact I]. apply (psim_rebuild (Network6 p6) (Network 128 p)). apply psim_Network. exact P.
Qed.
(* Set_ *)
Lemma set__Insert_sim m6 m o6 o : optsim tsim m6 m -> optsim sisim o6 o -> rsim (optsim tsim) (set__Insert6 peq6 m6 o6) (set__Insert 128 peq m o).
Proof.
  intros M O. destruct m6, m; try contradiction M; [|exact I]. cbn [set__Insert6 set__Insert].
  apply (rsim_bind tsim); [apply setI_sim; exact O|]. intros. apply (rsim_bind tsim); [apply Union_sim; assumption|]. auto.
Qed.
Lemma set__Remove_sim m6 m o6 o : optsim tsim m6 m -> optsim sisim o6 o -> rsim (optsim tsim) (set__Remove6 peq6 m6 o6) (set__Remove 128 peq m o).
Proof.
  intros M O. destruct m6, m; try contradiction M; [|exact I]. cbn [set__Remove6 set__Remove].
  apply (rsim_bind tsim); [apply setI_sim; exact O|]. intros. apply (rsim_bind tsim); [apply Difference_sim; assumption|]. auto.
Qed.
Lemma set__IsEmpty_sim m6 m : optsim tsim m6 m -> set__IsEmpty6 m6 = set__IsEmpty 128 m.
Proof. destruct m6, m; cbn [optsim]; try contradiction; intros M; [|reflexivity]. unfold set__IsEmpty. change (128 =? 32) with false. apply set_IsEmpty_sim. exact M. Qed.
Lemma set__Contains_sim m6 m o6 o : optsim tsim m6 m -> optsim sisim o6 o -> rsim eq (set__Contains6 peq6 m6 o6) (set__Contains 128 peq m o).
Proof.
  intros M O. destruct m6, m; try contradiction M; [apply set_Contains_sim; assumption|].
  destruct o6, o; try contradiction O; [|reflexivity]. cbn [set__Contains6 set__Contains].
  apply (rsim_bind tsim); [apply asSet_sim; exact O|]. intros. apply set_IsEmpty_sim. assumption.
Qed.
Lemma set__Equal_sim m6 m o6 o : optsim tsim m6 m -> optsim tsim o6 o -> rsim eq (set__Equal6 peq6 m6 o6) (set__Equal 128 peq m o).
Proof.
  intros M O. destruct m6, m; try contradiction M; cbn [set__Equal6 set__Equal].
  - apply set_Equal_sim; [exact M|apply set__Set_sim; exact O].
  - apply set__IsEmpty_sim. exact O.
Qed.
Lemma set__Union_sim m6 m o6 o : optsim tsim m6 m -> optsim sisim o6 o -> rsim tsim (set__Union6 peq6 m6 o6) (set__Union 128 peq m o).
Proof. intros M O. destruct m6, m; try contradiction M; [apply set_Union_sim|apply setI_sim]; assumption. Qed.
Lemma set__Intersection_sim m6 m o6 o : optsim tsim m6 m -> optsim sisim o6 o -> rsim tsim (set__Intersection6 peq6 m6 o6) (set__Intersection 128 peq m o).
Proof. intros M O. destruct m6, m; try contradiction M; [apply set_Intersection_sim; assumption|constructor]. Qed.
Lemma set__Difference_sim m6 m o6 o : optsim tsim m6 m -> optsim sisim o6 o -> rsim tsim (set__Difference6 peq6 m6 o6) (set__Difference 128 peq m o).
Proof. intros M O. destruct m6, m; try contradiction M; [apply set_Difference_sim; assumption|constructor]. Qed.
Lemma prefix_Contains_sim p6 p o6 o : psim p6 p -> optsim sisim o6 o -> rsim eq (prefix_Contains6 peq6 p6 o6) (prefix_Contains 128 peq p o).
Proof. intros P O. apply (rsim_bind tsim); [apply asSet_sim; constructor; exact P|]. intros. apply set_Contains_sim; assumption. Qed.
Lemma range_Contains_sim p6 p o6 o : rgsim p6 p -> optsim sisim o6 o -> rsim eq (range_Contains6 peq6 p6 o6) (range_Contains 128 peq p o).
Proof. intros P O. apply (rsim_bind tsim); [apply asSet_sim; constructor; exact P|]. intros. apply set_Contains_sim; assumption. Qed.
End SimSet.
