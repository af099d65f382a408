(* PropsSame.v - C56: a call that changes nothing gives back the very same table:
   the root it returns is the one it was called on, not merely an equal tree. *)
From Verif Require Export PropsCb.
From Verif Require Import HeapCost PropsCost2.
From Coq Require Import Arith ZifyBool ZifyNat ZifyN.
Local Open Scope prog_scope.

Section Any.
Variable W : N.
Context {T : Type}.
Variable ieq : option T -> option T -> res bool.

Lemma bind_ok {A B} (m : prog T A) (f : A -> prog T B) h h' x : run (pbind m f) h = (h', Ok x) ->
  exists h1 a, run m h = (h1, Ok a) /\ run (f a) h1 = (h', Ok x).
Proof.
  rewrite run_pbind. destruct (run m h) as [h1 [a| |]]; cbn [fst snd]; intros E; try discriminate. eauto.
Qed.
Ltac step H := apply bind_ok in H; let h1 := fresh "h" in let a := fresh "a" in let E := fresh "E" in destruct H as (h1 & a & E & H).

Lemma insert_nil_err node (o : @insertOpts T) (h : heap T) h' n e : run (h_insert_nil node o) h = (h', Ok (n, Some e)) -> n = @None nat.
Proof. unfold h_insert_nil. destruct (negb (o_insert o)); [intros H; injection H as _ <- _; reflexivity|]. intros H. step H. discriminate H. Qed.
Lemma insert_err (o : @insertOpts T) : forall fuel me node (h : heap T) h' n e,
  run (h_insert W ieq fuel me node o) h = (h', Ok (n, Some e)) -> n = me.
Proof.
  induction fuel as [|f IH]; intros me node h h' n e H; [discriminate H|]. cbn [h_insert] in H.
  destruct me as [i|]; [|eapply insert_nil_err; eauto].
  step H. step H. destruct (compare W (hPrefix a) (hPrefix a0)) as [[[res rev] com] child]. destruct res.
  - destruct (hactive a && negb (o_update o)); [injection H; auto|]. destruct (negb (hactive a) && negb (o_insert o)); [injection H; auto|].
    destruct (o_flatten o) eqn:F; [discriminate H|]. step H. discriminate H.
  - destruct (o_flatten o && hactive a); [discriminate H|]. step H. destruct a1 as [nc [e'|]]; [injection H; auto|]. step H. discriminate H.
  - destruct (negb (o_insert o)); [injection H; auto|]. step H. discriminate H.
  - step H. destruct a1 as [nc [e'|]]; [injection H; auto|]. destruct (if xorb child rev then _ else _). step H. step H. discriminate H.
Qed.
Lemma del_err : forall fuel me k (h : heap T) h' n e, run (h_del W ieq fuel me k) h = (h', Ok (n, Some e)) -> n = me.
Proof.
  induction fuel as [|f IH]; intros me k h h' n e H; [discriminate H|]. cbn [h_del] in H.
  destruct me as [i|]; [|injection H; auto]. step H. destruct (compare W (hPrefix a) k) as [[[res ?] ?] child]. destruct res.
  - destruct (nilp (hc0 a)); [discriminate H|]. destruct (nilp (hc1 a)); [discriminate H|]. step H. discriminate H.
  - step H. destruct a0 as [nc [e'|]]; [injection H; auto|]. destruct (_ && _); [discriminate H|]. step H. discriminate H.
  - injection H; auto.
  - injection H; auto.
Qed.

Lemma upd_id (h : heap T) : forall i n, nth_error h i = Some n -> Heap.upd h i n = h.
Proof. induction h as [|x h IH]; intros [|i] n E; cbn in *; try discriminate; [congruence|]. rewrite IH; auto. Qed.
Lemma node_eq_refl (n : hnode T) : (forall d, ieq d d = Ok true) -> node_eq ieq n n = Ok true.
Proof.
  intros R. unfold node_eq, prefix_eqb. rewrite !N.eqb_refl. cbn [andb negb]. rewrite R. cbn [bind negb].
  rewrite Bool.eqb_reflx. assert (P : forall p, ptr_eqb p p = true) by (intros [x|]; cbn; [apply Nat.eqb_refl|reflexivity]).
  rewrite !P. reflexivity.
Qed.
Lemma run_alloc {B} n (k : nat -> prog T B) h : run (pbind (alloc n) k) h = run (k (length h)) (h ++ [n]). Proof. reflexivity. Qed.
Lemma copyMutate_same (h : heap T) i p d a c0 c1 t0 t1 c :
  (forall d, ieq d d = Ok true) ->
  nth_error h i = Some (mkH p d (NumNodes (mk p d a t0 t1)) (height (mk p d a t0 t1)) a c0 c1) -> denotes h c0 t0 -> denotes h c1 t1 ->
  run (h_copyMutate ieq (Some i) (fun z => modify z (w_kid c (if c then c1 else c0)))) h =
  (h ++ [mkH p d (NumNodes (mk p d a t0 t1)) (height (mk p d a t0 t1)) a c0 c1], Ok (Some i)).
Proof.
  intros R E D0 D1. set (n := mkH p d _ _ a c0 c1) in *. unfold h_copyMutate. rewrite (run_load _ _ _ _ E).
  rewrite run_alloc. set (h1 := h ++ [n]).
  assert (G : forall j, (j < length h)%nat -> nth_error h1 j = nth_error h j) by (intros; apply nth_error_app1; auto).
  assert (Ez : nth_error h1 (length h) = Some n) by (unfold h1; rewrite nth_error_app2, Nat.sub_diag by lia; reflexivity).
  assert (Ei : nth_error h1 i = Some n) by (rewrite G; [exact E|apply nth_error_Some; congruence]).
  assert (D0' : denotes h1 c0 t0) by (eapply denotes_grow; [exact G|exact D0]).
  assert (D1' : denotes h1 c1 t1) by (eapply denotes_grow; [exact G|exact D1]).
  assert (MU : run (h_mutate (Some (length h)) (fun z => modify z (w_kid c (if c then c1 else c0)))) h1 = (h1, Ok (Some (length h)))).
  { unfold h_mutate. rewrite (run_modify _ _ _ _ _ Ez). replace (w_kid c (if c then c1 else c0) n) with n by (destruct c; reflexivity).
    rewrite (upd_id _ _ _ Ez). rewrite (run_load _ _ _ _ Ez). cbn [hc0 hc1 n].
    rewrite run_pbind, (run_NumNodes _ _ _ _ D0'). cbn [fst snd]. rewrite run_pbind, (run_NumNodes _ _ _ _ D1'). cbn [fst snd].
    rewrite run_pbind, (run_height _ _ _ _ D0'). cbn [fst snd]. rewrite run_pbind, (run_height _ _ _ _ D1'). cbn [fst snd].
    cbv zeta. cbn [store pbind run]. 
    match goal with |- context[Heap.upd h1 (length h) ?x] => replace x with n end; [rewrite (upd_id _ _ _ Ez); reflexivity|].
    unfold n, w_sizes, mk. cbn [hPrefix hData hactive hc0 hc1 NumNodes height]. reflexivity. }
  rewrite run_pbind, MU. cbn [fst snd]. rewrite (run_load _ _ _ _ Ez), (run_load _ _ _ _ Ei).
  rewrite (node_eq_refl n R). reflexivity.
Qed.
End Any.

Section C56.
Variable W : N.
Hypothesis IPW : ip_width W.
Context {T : Type}.
Variable zeroT : T.
Variable box : T -> option T.
Variable goeq : T -> T -> res bool.
Hypothesis Hgoeq : forall x y, exists b, goeq x y = Ok b /\ (b = true <-> x = y).
Notation unbox := (unbox zeroT).
Notation reachable := (reachable W zeroT box goeq).
Notation stored := (PropsTable.stored W zeroT).
Notation ieq := (defaultComparator goeq).
Let HW : 0 < W /\ W < 2 ^ 15 := ip_HW W IPW.

Lemma ieq_refl : forall d, ieq d d = Ok true.
Proof.
  intros [x|]; [|reflexivity]. cbn. destruct (Hgoeq x x) as (b & E & Hb). rewrite E. f_equal. apply Hb. reflexivity.
Qed.
Lemma goi_same : forall fuel t k h p q (v : option T) q' d, wf W k t -> wf_prefix W q -> denotes h p t -> (HeapLogic.depth t < fuel)%nat ->
  fk W (key W q) t = Some (q', d) ->
  exists h' i n, run (h_GetOrInsert W ieq fuel p q v) h = (h', Ok (p, Some i)) /\
    HeapCbProof.grows h h' /\ nth_error h i = Some n /\ hPrefix n = q' /\ hData n = d.
Proof.
  induction fuel as [|f IH]; intros t k h p q v q' d Hw Hq D Dp F; [lia|].
  destruct t as [|pr dd s hh a l r]; [rewrite fk_nil in F; discriminate|].
  pose proof Hw as (Hp & Hkp & Hs & Hh & Ha & Hl & Hr).
  pose proof D as (i & c0 & c1 & -> & _ & E & Dl & Dr). cbn [h_GetOrInsert]. rewrite (run_load _ _ _ _ E). cbn [hPrefix hactive].
  destruct (N.ltb_spec (plen q) (plen pr)) as [HL|HL].
  { exfalso. assert (X : fk W (key W q) (Node pr dd s hh a l r) = None).
    { apply (fk_notpre W); try assumption. intros X. apply pre_length in X. rewrite !key_length in X. lia. }
    congruence. }
  destruct (contains_spec W HW pr q Hp Hq HL) as [[K ->]|[(c & x & K & ->)|(y & c & rs & rl & E1 & E2 & ->)]]; cbn [negb].
  - rewrite <- K in F. rewrite (fk_here W) in F by assumption. destruct a; [|discriminate]. injection F as <- <-. cbn [negb].
    exists h, i, (mkH pr dd s hh true c0 c1). split; [reflexivity|]. split; [split; auto|]. auto.
  - assert (EL : fk W (key W q) (Node pr dd s hh a l r) = fk W (key W q) (kid c l r)) by (rewrite K; apply (fk_below W); assumption).
    rewrite EL in F.
    assert (DK : denotes h (kidp c (mkH pr dd s hh a c0 c1)) (kid c l r)) by (destruct c; [exact Dr|exact Dl]).
    assert (DpK : (HeapLogic.depth (kid c l r) < f)%nat) by (cbn [HeapLogic.depth] in Dp; destruct c; cbn [kid]; lia).
    destruct (IH _ _ h _ q v q' d (wf_kid W _ _ _ _ _ _ _ _ c Hw) Hq DK DpK F) as (h1 & j & n & R1 & G1 & Ej & P1 & P2).
    rewrite run_pbind, R1. cbn [fst snd].
    assert (E1 : nth_error h1 i = Some (mkH pr dd s hh a c0 c1)) by (destruct G1 as [_ G1]; rewrite G1; [exact E|apply nth_error_Some; congruence]).
    rewrite run_pbind. rewrite Hs, Hh in E1.
    replace (kidp c (mkH pr dd s hh a c0 c1)) with (if c then c1 else c0) by (destruct c; reflexivity).
    rewrite (copyMutate_same ieq h1 i pr dd a c0 c1 l r c ieq_refl E1 (grows_denotes _ _ _ _ G1 Dl) (grows_denotes _ _ _ _ G1 Dr)). cbn [fst snd].
    eexists _, j, n. split; [reflexivity|]. split; [|auto].
    destruct G1 as [G1 G2]. split; [rewrite app_length; lia|]. intros z Hz. rewrite nth_error_app1 by lia. auto.
  - exfalso. assert (X : fk W (key W q) (Node pr dd s hh a l r) = None).
    { apply (fk_notpre W); try assumption. intros [z X]. rewrite E1, E2 in X. rewrite <- app_assoc in X. apply app_inv_head in X. destruct c; discriminate X. }
    congruence.
Qed.

(* the calls that fail, and GetOrInsert of a prefix that has an entry *)
Theorem C56_same_table : forall t (h : heap T) p q v eq, reachable t -> denotes h p (tx_trie t) -> wf_prefix W q ->
  (stored t q <> None ->
     (exists h', run (h_Insert W ieq p q v) h = (h', Ok (p, Some ErrExists))) /\
     (exists h' i n, run (h_GetOrInsert W ieq (pathW W) p q v) h = (h', Ok (p, Some i)) /\
        nth_error h' i = Some n /\ stored t q = Some (hPrefix n, unbox (hData n)))) /\
  (stored t q = None -> exists h', run (h_Update W ieq p q v eq) h = (h', Ok (p, Some ErrNoKeyToUpdate))) /\
  (forall h' n e, run (h_del W ieq (pathW W) p q) h = (h', Ok (n, Some e)) -> n = p).
Proof.
  intros t h p q v eq Ht D Hq. pose proof (rinv W IPW zeroT box goeq _ Ht) as (Hw & _).
  destruct (C20_table_calls_compute W HW ieq (ieq_is_ok goeq Hgoeq) h p (tx_trie t) D Hw q v eq) as (RI & RU & _).
  rewrite (stored_fk W IPW) by auto. split; [|split].
  - intros F. destruct (fk W (key W q) (tx_trie t)) as [[q' d]|] eqn:FK; [|exfalso; apply F; reflexivity]. split.
    + pose proof (insert_spec W HW (tx_trie t) [] q v {| o_insert := true; o_update := false; o_flatten := false; o_eq := nil_eq |} Hw Hq (pre_nil _) eq_refl) as SP.
      unfold insert_result in SP. rewrite FK in SP. cbn [o_update] in SP. unfold Insert in RI. rewrite SP in RI. unfold same_outcome in RI.
      destruct (run (h_Insert W ieq p q v) h) as [h' [[n e]| |]] eqn:R; cbn [fst snd] in RI; try contradiction. destruct RI as [_ RI]. cbn [snd] in RI. subst e.
      unfold h_Insert in R. apply bind_ok in R. destruct R as (h1 & nd & _ & R). apply insert_err in R. subst n. eauto.
    + destruct (goi_same (pathW W) (tx_trie t) [] h p q v q' d Hw Hq D (depth_wf W HW _ _ Hw) FK) as (h' & i & n & R & G & E & P1 & P2).
      exists h', i, n. split; [exact R|]. destruct G as [_ G]. split; [rewrite G; [exact E|apply nth_error_Some; congruence]|].
      subst. reflexivity.
  - intros F. destruct (fk W (key W q) (tx_trie t)) as [[q' d]|] eqn:FK; [discriminate F|].
    pose proof (insert_spec W HW (tx_trie t) [] q v {| o_insert := false; o_update := true; o_flatten := false; o_eq := eq |} Hw Hq (pre_nil _) eq_refl) as SP.
    unfold insert_result in SP. rewrite FK in SP. cbn [o_insert] in SP. unfold Update in RU. rewrite SP in RU. unfold same_outcome in RU.
    destruct (run (h_Update W ieq p q v eq) h) as [h' [[n e]| |]] eqn:R; cbn [fst snd] in RU; try contradiction. destruct RU as [_ RU]. cbn [snd] in RU. subst e.
    unfold h_Update in R. apply bind_ok in R. destruct R as (h1 & nd & _ & R). apply insert_err in R. subst n. eauto.
  - intros h' n e R. eapply del_err. exact R.
Qed.

(* so that a Diff between before and after returns without looking at a node *)
Theorem C56_diff_is_free : forall {S} (h : heap T) p (H : hHandler S) eq (st : S), hSame H = None ->
  instructions (h_Diff W p p H eq st) h = 0%nat /\ run (h_Diff W p p H eq st) h = (h, Ok (st, true)).
Proof.
  intros S h p H eq st HS. unfold h_Diff. destruct (fuelW W) as [|f] eqn:FW; [unfold fuelW in FW; lia|]. cbn [h_diff]. rewrite HS.
  assert (P : ptr_eqb p p = true) by (destruct p; cbn; [apply Nat.eqb_refl|reflexivity]). rewrite P. split; reflexivity.
Qed.
End C56.
