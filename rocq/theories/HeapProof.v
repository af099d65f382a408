(* HeapProof.v - the pointer-level table operations compute what the tree-level
   operations of Trie.v compute. *)
From Verif Require Import WF.
From Verif Require Export HeapLogic.
From Coq Require Import Arith ZifyBool ZifyNat ZifyN.
Local Open Scope prog_scope.

Ltac conj := repeat match goal with |- _ /\ _ => split end.

Section Refine.
Variable W : N.
Context {T : Type}.
Variable ieq : option T -> option T -> res bool.
Hypothesis IEQ : ieq_ok ieq.
Notation aset := (nat -> Prop).
Notation hp := (heap T).
Implicit Types (S : aset) (h : hp) (t : trie T).

(* the outcome of the pointer program matches that of the tree function *)
Definition rel {A B} (R : A -> B -> aset -> hp -> Prop) (x : res A) (r : res B) S h : Prop :=
  match x, r with
  | Ok a, Ok b => R a b S h
  | Panic, Panic => True
  | OutOfFuel, OutOfFuel => True
  | _, _ => False
  end.
Definition r_t t (p : ptr) S h : Prop := repr S h p t.
Definition r_te (x : trie T * option terr) (y : ptr * option terr) S h : Prop := snd x = snd y /\ repr S h (fst y) (fst x).

Lemma repr_kid S h c0 c1 p (d : option T) s hh a c l r : repr S h c0 l -> repr S h c1 r ->
  repr S h (kidp c (mkH p d s hh a c0 c1)) (kid c l r).
Proof. destruct c; cbn; auto. Qed.
Lemma depth_kid c (l r : trie T) : (depth (kid c l r) <= Nat.max (depth l) (depth r))%nat.
Proof. destruct c; cbn; lia. Qed.
Lemma repr_sub S h p t S' : repr S h p t -> incl_s S S' -> repr S' h p t.
Proof. intros H I. eapply repr_keep; eauto. apply keeps_refl. Qed.
Lemma wo_mono l S S' : incl_s S S' -> incl_s (without l S) (without l S').
Proof. intros H i [A B]. split; auto. Qed.
Lemma keeps_sub S S' h h' : incl_s S S' -> keeps S' h h' -> keeps S h h'.
Proof. intros H K i X. apply K. auto. Qed.
Lemma keeps_kids l (S : aset) h h1 h2 : keeps (without l S) h h1 -> keeps (without l S) h1 h2 -> keeps (without l S) h h2.
Proof. apply keeps_trans. Qed.

Lemma wpi_insert_nil S h node np nd (o : @insertOpts T) (Q : res (ptr * option terr) -> aset -> hp -> Prop) : dom S h -> S node ->
  nth_error h node = Some (fresh np nd) ->
  (forall h' p, dom S h' -> keeps (without node S) h h' ->
     repr S h' p (fst (insert_nil np nd o)) ->
     (exists n, nth_error h' node = Some n /\ hData n = nd) ->
     Q (Ok (p, snd (insert_nil np nd o))) S h') ->
  wpi S h (h_insert_nil node o) Q.
Proof.
  intros D Hn E K. unfold h_insert_nil. unfold insert_nil in K. destruct (o_insert o); cbn [negb] in *.
  - apply wpi_bind. apply wpi_mutate. eapply wpi_modify_last; eauto. intros h' D' E' K'.
    eexists _, Nil, Nil. conj; eauto; try reflexivity.
    intros h'' D'' K'' E'' R''. apply K; auto.
    + eapply keeps_trans; eauto.
    + eexists. split; [exact E''|reflexivity].
  - apply wpi_ret. apply K; auto; [apply keeps_refl|reflexivity|eexists; split; [exact E|reflexivity]].
Qed.

Definition ins_post (o : @insertOpts T) node nd (x : res (trie T * option terr)) (r : res (ptr * option terr)) S h : Prop :=
  rel r_te x r S h /\
  (o_update o = false -> match r with Ok _ => exists n, S node /\ nth_error h node = Some n /\ hData n = nd | _ => True end).

Lemma wpi_insert (o : @insertOpts T) (NF : o_flatten o = false) : forall fuel t me node np nd S h,
  dom S h -> S node -> nth_error h node = Some (fresh np nd) -> repr (without node S) h me t -> (depth t < fuel)%nat ->
  wpi S h (h_insert W ieq fuel me node o) (ins_post o node nd (insert W t np nd o)).
Proof.
  induction fuel as [|fuel IH]; intros t me node np nd S h D Hn En R Hf; [lia|].
  cbn [h_insert]. destruct t as [|p d s hh a l r].
  - cbn [repr] in R. subst me. apply wpi_insert_nil with (np := np) (nd := nd); auto. intros h' p D' K' R' (n & E1 & E2). cbn [insert].
    destruct (insert_nil np nd o) as [t' e]. cbn [fst snd] in *. split; [split; auto|eauto].
  - cbn [repr] in R. destruct R as (i & c0 & c1 & -> & (Hi & Ni) & Ei & R0 & R1).
    eapply wpi_load; [exact Hi|exact Ei|]. eapply wpi_load; [exact Hn|exact En|]. cbn [insert hPrefix hactive hData hc0 hc1 fresh].
    assert (RM : repr (without node S) h (Some i) (Node p d s hh a l r)).
    { exists i, c0, c1. repeat split; auto. }
    assert (SAME : forall e, ins_post o node nd (Ok (Node p d s hh a l r, e)) (Ok (Some i, e)) S h).
    { intros e. split; [split; [reflexivity|eapply repr_sub; [exact RM|apply without_incl]]|].
      intros _. eexists. split; [auto|]. split; [exact En|reflexivity]. }
    destruct (compare W p np) as [[[result reversed] common] child] eqn:C. rewrite NF. cbn [andb]. destruct result.
    + (* same *)
      destruct (a && negb (o_update o)) eqn:B1; [apply wpi_ret; apply SAME|].
      destruct (negb a && negb (o_insert o)) eqn:B2; [apply wpi_ret; apply SAME|].
      apply wpi_bind. apply wpi_mutate.
      (* the rest of the mutator, given the data in the node *)
      assert (REST : forall d' h1, dom S h1 -> keeps (without node S) h h1 ->
        (o_update o = false -> d' = nd) ->
        nth_error h1 node = Some (fresh np d') ->
        wpi S h1 (modify node (w_kids c0 c1) ;;; modify node (w_active true) ;;; ret tt)
         (mpost node (fun r0 S' h' => match r0 with
            | Ok a => wpi S' h' (ret (a, None)) (ins_post o node nd (Ok (mk np d' true l r, None)))
            | _ => False end))).
      { intros d' h1 D1 K1 ND E1. eapply wpi_modify; eauto. intros h2 D2 E2 K2. eapply wpi_modify; eauto. intros h3 D3 E3 K3.
        apply wpi_ret. eexists _, l, r. conj; eauto.
        - cbn. eapply repr_keep; [exact R0|apply incl_refl|]. do 2 (eapply keeps_trans; [eassumption|]). auto.
        - cbn. eapply repr_keep; [exact R1|apply incl_refl|]. do 2 (eapply keeps_trans; [eassumption|]). auto.
        - intros h4 D4 K4 E4 R4. apply wpi_ret. split; [split; [reflexivity|exact R4]|].
          intros U. eexists. split; [auto|]. split; [exact E4|]. cbn. auto. }
      assert (FIN : forall d' (Q : res ptr -> aset -> hp -> Prop), (forall r0 S' h', match r0 with
            | Ok a => wpi S' h' (ret (a, None)) (ins_post o node nd (Ok (mk np d' true l r, None)))
            | _ => False end -> Q r0 S' h') ->
          forall r0 S' h', mpost node (fun r0 S' h' => match r0 with
            | Ok a => wpi S' h' (ret (a, None)) (ins_post o node nd (Ok (mk np d' true l r, None)))
            | _ => False end) r0 S' h' -> @mpost T node Q r0 S' h').
      { intros d' Q HQ r0 S' h' X. destruct r0; [|destruct X..]. destruct X as (n & t0 & t1 & X1 & X2 & X3 & X4 & X5 & X6).
        exists n, t0, t1. conj; auto. }
      destruct a.
      * apply wpi_bind. eapply wpi_load; [exact Hn|exact En|]. unfold lift. cbn [wpi hData fresh].
        destruct (o_eq o d nd) as [keep| |]; cbn [bind].
        -- destruct keep.
           ++ eapply wpi_modify; eauto. intros h1 D1 E1 K1. eapply wpi_conseq; [apply (REST d h1); auto|].
              ** intros U. rewrite U in B1. discriminate.
              ** apply FIN. intros [|  |] S' h' X; [|destruct X..]. exact X.
           ++ apply wpi_bind. apply wpi_ret. eapply wpi_conseq; [apply (REST nd h); auto|]; [apply keeps_refl|].
              apply FIN. intros [|  |] S' h' X; [|destruct X..]. exact X.
        -- split; [exact I|]. auto.
        -- split; [exact I|]. auto.
      * cbn [bind]. apply wpi_bind. apply wpi_ret. apply wpi_bind. apply wpi_ret. eapply wpi_conseq; [apply (REST nd h); auto|]; [apply keeps_refl|].
        apply FIN. intros [|  |] S' h' X; [|destruct X..]. exact X.
    + (* contains *)
      apply wpi_bind.
      assert (Rk : repr (without node S) h (kidp child (mkH p d s hh a c0 c1)) (kid child l r)) by (apply repr_kid; auto).
      pose proof (IH _ _ node np nd S h D Hn En Rk) as X.
      assert (Dk : (depth (kid child l r) < fuel)%nat) by (pose proof (depth_kid child l r); cbn [depth] in Hf; lia).
      specialize (X Dk). eapply wpi_frame in X; [|exact D|eapply ownp_owns; apply (ownp_insert W ieq fuel _ node o (fun x => x = node)); reflexivity].
      eapply wpi_conseq; [exact X|]. cbn beta. intros r1 S1 h1 ((X1 & X2) & I1 & D1 & K1).
      assert (K1' : keeps (without node S) h h1) by (intros j [Hj Nj]; apply K1; auto).
      destruct (insert W (kid child l r) np nd o) as [[t' e]| |], r1 as [[q e']| |]; try contradiction; cbn [bind].
      2: { split; [exact I|auto]. } 2: { split; [exact I|auto]. }
      destruct X1 as [X1 X3]. cbn [fst snd] in X1, X3. subst e'. destruct e as [e|].
      { apply wpi_ret. split; [split; [reflexivity|]|auto]. cbn [fst]. eapply repr_keep; [exact RM| |exact K1'].
        eapply incl_trans; [apply without_incl|exact I1]. }
      apply wpi_bind.
      assert (Ei1 : nth_error h1 i = Some (mkH p d s hh a c0 c1)) by (rewrite K1' by (split; auto); exact Ei).
      eapply wpi_copyMutate; [exact IEQ|exact D1|apply I1; exact Hi|exact Ei1|]. intros z h2 Nz D2 Ez K2.
      apply wpi_bind. eapply wpi_modify_last; [exact D2|left; reflexivity|exact Ez|]. intros h3 D3 E3 K3. apply wpi_ret.
      assert (Iz : incl_s S1 (without z (plus1 z S1))) by (apply without_plus1; auto).
      assert (K13 : keeps S1 h1 h3).
      { intros j Hj. rewrite K3 by (split; [right; auto|intros ->; auto]). apply K2. auto. }
      eexists _, (setl child t' l), (setr child t' r). conj; eauto.
      * left. reflexivity.
      * right. auto.
      * rewrite K13 by auto. exact Ei1.
      * destruct child; cbn; eapply repr_keep; [exact R0| |eapply keeps_trans; [exact K1'|eapply keeps_sub; [|exact K13]]|exact X3| |exact K13]; auto.
        -- eapply incl_trans; [apply without_incl|]. eapply incl_trans; [exact I1|exact Iz].
        -- eapply incl_trans; [apply without_incl|exact I1].
      * destruct child; cbn; eapply repr_keep; [exact X3| |exact K13|exact R1| |eapply keeps_trans; [exact K1'|eapply keeps_sub; [|exact K13]]]; auto.
        -- eapply incl_trans; [apply without_incl|]. eapply incl_trans; [exact I1|exact Iz].
        -- eapply incl_trans; [apply without_incl|exact I1].
      * intros q' h4 D4 K4 R4. apply wpi_ret. split; [split; [reflexivity|]|].
        -- cbn [fst mk_opt bind]. destruct child; exact R4.
        -- intros U. destruct (X2 U) as (n & N1 & N2 & N3). exists n. split; [right; auto|]. split; auto.
           rewrite K4 by (apply Iz; auto). rewrite K13 by auto. exact N2.
    + (* is contained *)
      destruct (negb (o_insert o)); [apply wpi_ret; apply SAME|]. apply wpi_bind. apply wpi_mutate.
      eapply wpi_modify; [exact D|exact Hn|exact En|]. intros h1 D1 E1 K1. eapply wpi_modify; eauto. intros h2 D2 E2 K2. apply wpi_ret.
      assert (K12 : keeps (without node S) h h2) by (eapply keeps_trans; eauto).
      eexists _, (setl child (Node p d s hh a l r) Nil), (setr child (Node p d s hh a l r) Nil). conj; eauto.
      * destruct child; cbn [w_kid w_kids w_active fresh hc0 hc1]; [reflexivity|eapply repr_keep; [exact RM|apply incl_refl|exact K12]].
      * destruct child; cbn [w_kid w_kids w_active fresh hc0 hc1]; [eapply repr_keep; [exact RM|apply incl_refl|exact K12]|reflexivity].
      * intros h3 D3 K3 E3 R3. cbn [mk_opt bind]. apply wpi_ret. split; [split; [reflexivity|]|].
        -- cbn [fst]. destruct child; exact R3.
        -- intros _. eexists. split; [auto|]. split; [exact E3|]. destruct child; reflexivity.
    + (* disjoint *)
      apply wpi_bind. apply wpi_insert_nil with (np := np) (nd := nd); auto. intros h1 q D1 K1 Rq Nd.
      destruct (insert_nil np nd o) as [t' e]. cbn [fst snd] in *.
      assert (RM1 : repr S h1 (Some i) (Node p d s hh a l r)) by (eapply repr_keep; [exact RM|apply without_incl|exact K1]).
      destruct e as [e|].
      { apply wpi_ret. split; [split; [reflexivity|exact RM1]|]. intros _. destruct Nd as (n & N1 & N2). eauto. }
      assert (FINAL : forall (x y : ptr) (tx ty : trie T), repr S h1 x tx -> repr S h1 y ty ->
        wpi S h1 (newNode <- alloc (fresh_kids (join_prefix W p common) x y);;
                  _ <- h_mutate (Some newNode) (fun _ : nat => ret tt);; ret (Some newNode, None))
         (ins_post o node nd (Ok (mk (join_prefix W p common) None false tx ty, None)))).
      { intros x y tx ty Rx Ry. apply wpi_alloc; auto. intros z h2 Nz D2 Ez K2. apply wpi_bind. apply wpi_mutate. apply wpi_ret.
        assert (Iz : incl_s S (without z (plus1 z S))) by (apply without_plus1; auto).
        eexists _, tx, ty. conj; eauto.
        - left. reflexivity.
        - eapply repr_keep; [exact Rx|exact Iz|exact K2].
        - eapply repr_keep; [exact Ry|exact Iz|exact K2].
        - intros h3 D3 K3 E3 R3. apply wpi_ret. split; [split; [reflexivity|exact R3]|]. intros _. destruct Nd as (n & N1 & N2). exists n.
          split; [right; auto|]. split; auto. rewrite K3 by (apply Iz; auto). rewrite K2 by auto. auto. }
      destruct (xorb child reversed); cbn [mk_opt bind]; apply FINAL; auto.
Qed.

(* ---- calling a program that only writes nodes of its own ---- *)
Lemma wpi_pure {A} S h (p : prog T A) Q : dom S h -> owns none p -> wpi S h p Q ->
  wpi S h p (fun r S' h' => Q r S' h' /\ incl_s S S' /\ dom S' h' /\ keeps S h h').
Proof.
  intros D O H. eapply wpi_conseq; [eapply wpi_frame; eauto|]. cbn beta. intros r S' h' (A1 & A2 & A3 & A4). conj; auto. intros i Hi. apply A4; auto.
Qed.
Lemma wpi_call {A B} S h (p : prog T A) (f : A -> prog T B) (R : res A -> aset -> hp -> Prop) Q : dom S h -> owns none p -> wpi S h p R ->
  (forall r S' h', R r S' h' -> incl_s S S' -> dom S' h' -> keeps S h h' ->
     match r with Ok a => wpi S' h' (f a) Q | Panic => Q Panic S' h' | OutOfFuel => Q OutOfFuel S' h' end) ->
  wpi S h (pbind p f) Q.
Proof.
  intros D O H K. apply wpi_bind. eapply wpi_conseq; [apply wpi_pure; eauto|]. cbn beta. intros r S' h' (A1 & A2 & A3 & A4). apply K; auto.
Qed.
Lemma repr_up S h p t S' h' : repr S h p t -> incl_s S S' -> keeps S h h' -> repr S' h' p t.
Proof. intros. eapply repr_keep; eauto. Qed.

(* copyMutate with a mutator that turns the copied node n0 into n1 *)
Lemma wpi_copy S h i n0 n1 t0 t1 (mut : nat -> prog T unit) (Q : res ptr -> aset -> hp -> Prop) :
  dom S h -> S i -> nth_error h i = Some n0 ->
  repr S h (hc0 n1) t0 -> repr S h (hc1 n1) t1 ->
  (forall l h1, ~ S l -> dom (plus1 l S) h1 -> nth_error h1 l = Some n0 -> keeps S h h1 ->
     wpi (plus1 l S) h1 (mut l) (fun r S' h' => r = Ok tt /\ S' = plus1 l S /\ dom S' h' /\ nth_error h' l = Some n1 /\ keeps S h h')) ->
  (forall p S' h', incl_s S S' -> dom S' h' -> keeps S h h' -> repr S' h' p (mk (hPrefix n1) (hData n1) (hactive n1) t0 t1) -> Q (Ok p) S' h') ->
  wpi S h (h_copyMutate ieq (Some i) mut) Q.
Proof.
  intros D Hi E R0 R1 M K. eapply wpi_copyMutate; [exact IEQ|exact D|exact Hi|exact E|]. intros l h1 Nl D1 E1 K1.
  eapply wpi_conseq; [apply M; auto|]. cbn beta. intros r S' h' (-> & -> & D' & E' & K').
  assert (I : incl_s S (without l (plus1 l S))) by (apply without_plus1; auto).
  exists n1, t0, t1. conj; auto.
  - left. reflexivity.
  - right. exact Hi.
  - rewrite K' by auto. exact E.
  - eapply repr_keep; [exact R0|exact I|exact K'].
  - eapply repr_keep; [exact R1|exact I|exact K'].
  - intros p h'' D'' K'' R''. apply K; auto.
    + apply incl_plus1.
    + eapply keeps_trans; [exact K'|]. eapply keeps_sub; [exact I|exact K''].
Qed.
(* ... one field *)
Lemma wpi_copy1 S h i n0 f t0 t1 (Q : res ptr -> aset -> hp -> Prop) :
  dom S h -> S i -> nth_error h i = Some n0 ->
  repr S h (hc0 (f n0)) t0 -> repr S h (hc1 (f n0)) t1 ->
  (forall p S' h', incl_s S S' -> dom S' h' -> keeps S h h' -> repr S' h' p (mk (hPrefix (f n0)) (hData (f n0)) (hactive (f n0)) t0 t1) -> Q (Ok p) S' h') ->
  wpi S h (h_copyMutate ieq (Some i) (fun n => modify n f)) Q.
Proof.
  intros D Hi E R0 R1 K. eapply wpi_copy; eauto. intros l h1 Nl D1 E1 K1. eapply wpi_modify_last; [exact D1|left; reflexivity|exact E1|].
  intros h' D' E' K'. conj; auto. eapply keeps_trans; [exact K1|]. eapply keeps_sub; [|exact K']. apply without_plus1. auto.
Qed.
(* ... two fields *)
Lemma wpi_copy2 S h i n0 f g t0 t1 (Q : res ptr -> aset -> hp -> Prop) :
  dom S h -> S i -> nth_error h i = Some n0 ->
  repr S h (hc0 (g (f n0))) t0 -> repr S h (hc1 (g (f n0))) t1 ->
  (forall p S' h', incl_s S S' -> dom S' h' -> keeps S h h' -> repr S' h' p (mk (hPrefix (g (f n0))) (hData (g (f n0))) (hactive (g (f n0))) t0 t1) -> Q (Ok p) S' h') ->
  wpi S h (h_copyMutate ieq (Some i) (fun n => modify n f ;;; modify n g)) Q.
Proof.
  intros D Hi E R0 R1 K. eapply wpi_copy; eauto. intros l h1 Nl D1 E1 K1. eapply wpi_modify; [exact D1|left; reflexivity|exact E1|].
  intros h2 D2 E2 K2. eapply wpi_modify_last; [exact D2|left; reflexivity|exact E2|]. intros h' D' E' K'.
  assert (I : incl_s S (without l (plus1 l S))) by (apply without_plus1; auto). conj; auto.
  eapply keeps_trans; [exact K1|]. eapply keeps_trans; eapply keeps_sub; [exact I|exact K2|exact I|exact K'].
Qed.
Lemma wpi_copy_kid S h i p d s hh a c0 c1 l r child q t' (Q : res ptr -> aset -> hp -> Prop) :
  dom S h -> S i -> nth_error h i = Some (mkH p d s hh a c0 c1) ->
  repr S h c0 l -> repr S h c1 r -> repr S h q t' ->
  (forall p' S' h', incl_s S S' -> dom S' h' -> keeps S h h' -> repr S' h' p' (mk p d a (setl child t' l) (setr child t' r)) -> Q (Ok p') S' h') ->
  wpi S h (h_copyMutate ieq (Some i) (fun n => modify n (w_kid child q))) Q.
Proof.
  intros D Hi E R0 R1 R' K. eapply wpi_copy1 with (t0 := setl child t' l) (t1 := setr child t' r); eauto.
  - destruct child; cbn; auto.
  - destruct child; cbn; auto.
  - intros p' S' h' A1 A2 A3 A4. apply K; auto. destruct child; exact A4.
Qed.

(* ---- Insert, Update, InsertOrUpdate ---- *)
Hypothesis HW : 0 < W < 2 ^ 15.
Lemma depth_wf k t : wf W k t -> (depth t < pathW W)%nat.
Proof.
  intros H. assert (X : N.of_nat (depth t) = WF.depth t).
  { clear H. induction t as [|p d s hh a l IHl r IHr]; cbn [depth WF.depth]; lia. }
  destruct t as [|p d s hh a l r]; [unfold pathW; cbn; lia|].
  pose proof (depth_bound W HW k (Node p d s hh a l r) H ltac:(discriminate)) as B. unfold pathW. lia.
Qed.

Lemma wpi_Insert S h me k t q v : dom S h -> repr S h me t -> wf W k t ->
  wpi S h (h_Insert W ieq me q v) (rel r_te (Insert W t q v)).
Proof.
  intros D R Hw. unfold h_Insert. apply wpi_alloc; auto. intros l h1 Nl D1 E1 K1.
  eapply wpi_conseq; [eapply wpi_insert with (np := q) (nd := v)|].
  - reflexivity.
  - exact D1.
  - left. reflexivity.
  - exact E1.
  - eapply repr_keep; [exact R|apply without_plus1; auto|exact K1].
  - eapply depth_wf; eauto.
  - intros r S' h' [H _]. exact H.
Qed.
Lemma wpi_Update S h me k t q v eq : dom S h -> repr S h me t -> wf W k t ->
  wpi S h (h_Update W ieq me q v eq) (rel r_te (Update W t q v eq)).
Proof.
  intros D R Hw. unfold h_Update. apply wpi_alloc; auto. intros l h1 Nl D1 E1 K1.
  eapply wpi_conseq; [eapply wpi_insert with (np := q) (nd := v)|].
  - reflexivity.
  - exact D1.
  - left. reflexivity.
  - exact E1.
  - eapply repr_keep; [exact R|apply without_plus1; auto|exact K1].
  - eapply depth_wf; eauto.
  - intros r S' h' [H _]. exact H.
Qed.
Lemma wpi_InsertOrUpdate S h me k t q v eq : dom S h -> repr S h me t -> wf W k t ->
  wpi S h (h_InsertOrUpdate W ieq me q v eq) (rel r_t (InsertOrUpdate W t q v eq)).
Proof.
  intros D R Hw. unfold h_InsertOrUpdate, InsertOrUpdate. apply wpi_alloc; auto. intros l h1 Nl D1 E1 K1. apply wpi_bind.
  eapply wpi_conseq; [eapply wpi_insert with (np := q) (nd := v)|].
  - reflexivity.
  - exact D1.
  - left. reflexivity.
  - exact E1.
  - eapply repr_keep; [exact R|apply without_plus1; auto|exact K1].
  - eapply depth_wf; eauto.
  - intros r S' h' [H _]. destruct (insert W t q v _) as [[t' e]| |], r as [[p e']| |]; try contradiction; cbn [bind]; auto.
    destruct H as [H1 H2]. cbn [fst snd] in *. subst e'. destruct e; [exact I|]. apply wpi_ret. exact H2.
Qed.

(* ---- GetOrInsert ---- *)
(* the second result is a node, of which the callers read the Data *)
Definition r_goi (x : trie T * option T) (y : ptr * ptr) S h : Prop :=
  repr S h (fst y) (fst x) /\ exists i n, snd y = Some i /\ S i /\ nth_error h i = Some n /\ hData n = snd x.
Lemma wpi_goi S h me k t q v : dom S h -> repr S h me t -> wf W k t ->
  wpi S h (h_goi_insert W ieq me q v) (rel r_goi (goi_insert W t q v)).
Proof.
  intros D R Hw. unfold h_goi_insert, goi_insert, Insert. apply wpi_alloc; auto. intros l h1 Nl D1 E1 K1. apply wpi_bind.
  eapply wpi_conseq; [eapply wpi_insert with (np := q) (nd := v)|].
  - reflexivity.
  - exact D1.
  - left. reflexivity.
  - exact E1.
  - eapply repr_keep; [exact R|apply without_plus1; auto|exact K1].
  - eapply depth_wf; eauto.
  - intros r S' h' [H U]. destruct (insert W t q v _) as [[t' e]| |], r as [[p e']| |]; try contradiction; cbn [bind]; auto.
    destruct H as [H1 H2]. cbn [fst snd] in *. subst e'. destruct e; [exact I|]. apply wpi_ret. split; [exact H2|].
    destruct (U eq_refl) as (n & U1 & U2 & U3). exists l, n. conj; auto.
Qed.
Lemma wpi_GetOrInsert : forall fuel t me k q v S h,
  dom S h -> repr S h me t -> wf W k t -> (depth t < fuel)%nat ->
  wpi S h (h_GetOrInsert W ieq fuel me q v) (rel r_goi (GetOrInsert W t q v)).
Proof.
  induction fuel as [|fuel IH]; intros t me k q v S h D R Hw Hf; [lia|].
  cbn [h_GetOrInsert]. destruct t as [|p d s hh a l r].
  - pose proof R as R'. cbn [repr] in R. subst me. cbn [GetOrInsert]. eapply wpi_goi; eauto.
  - pose proof R as RM. cbn [repr] in R. destruct R as (i & c0 & c1 & -> & Hi & Ei & R0 & R1).
    eapply wpi_load; [exact Hi|exact Ei|]. cbn [GetOrInsert hPrefix hactive hData hc0 hc1].
    destruct (plen q <? plen p); [eapply wpi_goi; eauto|].
    destruct (contains W p q) as [[[matches exact] common] child].
    destruct (negb matches); [eapply wpi_goi; eauto|].
    destruct (negb exact).
    + assert (Rk : repr S h (kidp child (mkH p d s hh a c0 c1)) (kid child l r)) by (apply repr_kid; auto).
      assert (Dk : (depth (kid child l r) < fuel)%nat) by (pose proof (depth_kid child l r); cbn [depth] in Hf; lia).
      pose proof (wf_kid W k p d s hh a l r child Hw) as Wk.
      eapply wpi_call; [exact D|eapply ownp_owns; apply ownp_GetOrInsert|eapply (IH _ _ _ q v S h D Rk Wk Dk)|].
      cbn beta. intros r1 S1 h1 X I1 D1 K1.
      destruct (GetOrInsert W (kid child l r) q v) as [[t' rd]| |], r1 as [[q' rp]| |]; try contradiction; cbn [bind]; try exact I.
      destruct X as (X1 & j & n & X2 & X3 & X4 & X5). cbn [fst snd] in *. subst rp.
      apply wpi_bind. eapply wpi_copy_kid with (t' := t') (l := l) (r := r); [exact D1|apply I1; exact Hi| | | |exact X1|].
      * rewrite K1 by exact Hi. exact Ei.
      * eapply repr_keep; [exact R0|exact I1|exact K1].
      * eapply repr_keep; [exact R1|exact I1|exact K1].
      * intros p' S2 h2 I2 D2 K2 R2. apply wpi_ret. split; [exact R2|]. exists j, n. cbn [snd]. conj; auto.
        rewrite K2 by auto. exact X4.
    + destruct (negb a); [eapply wpi_goi; eauto|]. apply wpi_ret. split; [exact RM|]. cbn [fst snd]. eexists i, _. conj; eauto.
Qed.

(* ---- Match ---- *)
Definition r_match (x : option (prefix * option T)) (y : ptr) S h : Prop :=
  match x, y with
  | None, None => True
  | Some (p, d), Some i => exists n, S i /\ nth_error h i = Some n /\ hPrefix n = p /\ hData n = d
  | _, _ => False
  end.
Lemma wpi_Match : forall fuel t me q S h,
  dom S h -> repr S h me t -> (depth t < fuel)%nat ->
  wpi S h (h_Match W fuel me q) (rel r_match (Ok (Match W t q))).
Proof.
  induction fuel as [|fuel IH]; intros t me q S h D R Hf; [lia|].
  cbn [h_Match]. destruct t as [|p d s hh a l r].
  - cbn [repr] in R. subst me. exact I.
  - pose proof R as RM. cbn [repr] in R. destruct R as (i & c0 & c1 & -> & Hi & Ei & R0 & R1).
    eapply wpi_load; [exact Hi|exact Ei|]. cbn [Match hPrefix hactive hData hc0 hc1].
    destruct (plen q <? plen p); [exact I|].
    destruct (contains W p q) as [[[matches exact] common] child].
    destruct (negb matches); [exact I|].
    destruct (negb exact).
    + assert (Rk : repr S h (kidp child (mkH p d s hh a c0 c1)) (kid child l r)) by (apply repr_kid; auto).
      assert (Dk : (depth (kid child l r) < fuel)%nat) by (pose proof (depth_kid child l r); cbn [depth] in Hf; lia).
      eapply wpi_call; [exact D|eapply ownp_owns; apply ownp_Match|eapply (IH _ _ q S h D Rk Dk)|].
      cbn beta. intros r1 S1 h1 X I1 D1 K1. destruct r1 as [b| |]; try contradiction. cbn [rel r_match] in X.
      destruct (Match W (kid child l r) q) as [[p' d']|], b as [b|]; try contradiction; cbn [nilp negb].
      * exact X.
      * destruct (negb a); [exact I|]. apply wpi_ret. eexists. conj; auto. { rewrite K1 by exact Hi. exact Ei. } reflexivity. reflexivity.
    + apply wpi_bind. apply wpi_ret. cbn [nilp negb]. destruct (negb a); [exact I|]. apply wpi_ret. eexists. conj; eauto.
Qed.

(* ---- Delete ---- *)
Lemma wpi_del : forall fuel t me q S h,
  dom S h -> repr S h me t -> (depth t < fuel)%nat ->
  wpi S h (h_del W ieq fuel me q) (rel r_te (Ok (del W t q))).
Proof.
  induction fuel as [|fuel IH]; intros t me q S h D R Hf; [lia|].
  cbn [h_del]. destruct t as [|p d s hh a l r].
  - cbn [repr] in R. subst me. split; reflexivity.
  - pose proof R as RM. cbn [repr] in R. destruct R as (i & c0 & c1 & -> & Hi & Ei & R0 & R1).
    eapply wpi_load; [exact Hi|exact Ei|]. cbn [del hPrefix hactive hData hc0 hc1].
    destruct (compare W p q) as [[[result reversed] common] child]. destruct result.
    + rewrite (repr_nilp _ _ _ _ R0). destruct (is_nil l) eqn:Nl; [split; [reflexivity|exact R1]|].
      rewrite (repr_nilp _ _ _ _ R1). destruct (is_nil r) eqn:Nr; [split; [reflexivity|exact R0]|].
      apply wpi_bind. eapply wpi_copy2 with (t0 := l) (t1 := r); eauto. intros p' S' h' I' D' K' R'. apply wpi_ret. split; [reflexivity|exact R'].
    + assert (Rk : repr S h (kidp child (mkH p d s hh a c0 c1)) (kid child l r)) by (apply repr_kid; auto).
      assert (Dk : (depth (kid child l r) < fuel)%nat) by (pose proof (depth_kid child l r); cbn [depth] in Hf; lia).
      eapply wpi_call; [exact D|eapply ownp_owns; apply ownp_del|eapply (IH _ _ q S h D Rk Dk)|].
      cbn beta. intros r1 S1 h1 X I1 D1 K1. destruct r1 as [[q' e']| |]; try contradiction.
      destruct (del W (kid child l r) q) as [t' e]. destruct X as [X1 X2]. cbn [fst snd] in *. subst e'.
      destruct e as [e|].
      { apply wpi_ret. split; [reflexivity|]. eapply repr_keep; [exact RM|exact I1|exact K1]. }
      rewrite (repr_nilp _ _ _ _ X2). destruct (is_nil t' && negb a).
      { apply wpi_ret. split; [reflexivity|]. cbn [fst]. eapply repr_keep; [apply repr_kid; [exact R0|exact R1]|exact I1|exact K1]. }
      apply wpi_bind. eapply wpi_copy_kid with (t' := t') (l := l) (r := r); [exact D1|apply I1; exact Hi| | | |exact X2|].
      * rewrite K1 by exact Hi. exact Ei.
      * eapply repr_keep; [exact R0|exact I1|exact K1].
      * eapply repr_keep; [exact R1|exact I1|exact K1].
      * intros p' S2 h2 I2 D2 K2 R2. apply wpi_ret. split; [reflexivity|exact R2].
    + split; [reflexivity|exact RM].
    + split; [reflexivity|exact RM].
Qed.
End Refine.
