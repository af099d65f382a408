(* Sim6.v - package ipv6 over uint128 structs (Trie6.v, SetNode6.v, Table6.v,
   SetApi6.v) computes, on the numbers represented, what the width-128 instance
   of the model computes: simulation of the tries. *)
From Verif Require Export V6Proof Trie6 Trie.
From Coq Require Import Arith Lia ZifyBool ZifyNat ZifyN.

(* ---- relations ---- *)
Definition psim (p6 : prefix6) (p : prefix) : Prop := wfp6 p6 /\ p = pnum p6.
Definition rgsim (r6 : range6) (r : range) : Prop := wfr6 r6 /\ r = rnum r6.
Inductive tsim {T} : trie6 T -> trie T -> Prop :=
| ts_nil : tsim Nil6 Nil
| ts_node p6 p d s h a l6 l r6 r : psim p6 p -> tsim l6 l -> tsim r6 r ->
    tsim (Node6 p6 d s h a l6 r6) (Node p d s h a l r).
(* results of running code *)
Definition rsim {A B} (R : A -> B -> Prop) (x : res A) (y : res B) : Prop :=
  match x, y with
  | Ok a, Ok b => R a b
  | Panic, Panic => True
  | OutOfFuel, OutOfFuel => True
  | _, _ => False
  end.
Definition pairsim {A B C D} (R : A -> B -> Prop) (Q : C -> D -> Prop) (x : A * C) (y : B * D) : Prop :=
  R (fst x) (fst y) /\ Q (snd x) (snd y).
Definition optsim {A B} (R : A -> B -> Prop) (x : option A) (y : option B) : Prop :=
  match x, y with Some a, Some b => R a b | None, None => True | _, _ => False end.

Lemma rsim_bind {A B C D} (R : A -> B -> Prop) (Q : C -> D -> Prop) x y f g :
  rsim R x y -> (forall a b, R a b -> rsim Q (f a) (g b)) -> rsim Q (bind x f) (bind y g).
Proof. destruct x, y; cbn [rsim bind]; auto; contradiction. Qed.
Lemma rsim_eq {A} (x : res A) : rsim eq x x.
Proof. destruct x; cbn; auto. Qed.
Lemma rsim_same {A C D} (Q : C -> D -> Prop) (x : res A) f g :
  (forall a, rsim Q (f a) (g a)) -> rsim Q (bind x f) (bind x g).
Proof. intros H. apply (rsim_bind eq); [apply rsim_eq|]. intros a b <-. apply H. Qed.

Lemma psim_len p6 p : psim p6 p -> plen6 p6 = plen p.
Proof. intros [_ ->]. reflexivity. Qed.
Lemma psim_compare p6 p q6 q : psim p6 p -> psim q6 q -> compare6 p6 q6 = compare 128 p q.
Proof. intros [Hp ->] [Hq ->]. apply compare6_num; assumption. Qed.
Lemma psim_contains p6 p q6 q : psim p6 p -> psim q6 q -> contains6 p6 q6 = contains 128 p q.
Proof. intros [Hp ->] [Hq ->]. apply contains6_num; assumption. Qed.
Lemma psim_join p6 p n : psim p6 p -> psim (join_prefix6 p6 n) (join_prefix 128 p n).
Proof. intros [Hp ->]. destruct (join_prefix6_num p6 n Hp) as [A B]. split; [exact A|]. symmetry. exact B. Qed.
Lemma psim_zero : psim zero_prefix6 zero_prefix.
Proof. split; [apply zero_num|reflexivity]. Qed.
Lemma psim_eqb p6 p q6 q : psim p6 p -> psim q6 q -> prefix_eqb6 p6 q6 = prefix_eqb p q.
Proof.
  intros [Hp ->] [Hq ->]. unfold prefix_eqb6, prefix_eqb. cbn [pnum paddr plen]. f_equal.
  apply u_eqb_num; assumption.
Qed.
Lemma psim_mk p6 p : psim p6 p -> psim (mkPrefix6 (paddr6 p6) (plen6 p6)) (mkPrefix (paddr p) (plen p)).
Proof. intros [H ->]. split; [exact H|reflexivity]. Qed.
Lemma psim_Network p6 p : psim p6 p -> psim (Network6 p6) (Network 128 p).
Proof. intros [Hp ->]. destruct (Network6_num p6 Hp) as [A B]. split; [exact A|]. symmetry. exact B. Qed.

Section Sim.
Context {T : Type}.
Local Notation tsim := (@tsim T).

Lemma tsim_NumNodes t6 t : tsim t6 t -> NumNodes6 t6 = NumNodes t.
Proof. destruct 1; reflexivity. Qed.
Lemma tsim_height t6 t : tsim t6 t -> height6 t6 = height t.
Proof. destruct 1; reflexivity. Qed.
Lemma tsim_active t6 t : tsim t6 t -> active6 t6 = active t.
Proof. destruct 1; reflexivity. Qed.
Lemma tsim_isnil t6 t : tsim t6 t -> is_nil6 t6 = is_nil t.
Proof. destruct 1; reflexivity. Qed.
Lemma tsim_data t6 t : tsim t6 t -> data_of6 t6 = data_of t.
Proof. destruct 1; reflexivity. Qed.
Lemma tsim_prefix t6 t : tsim t6 t -> psim (prefix_of6 t6) (prefix_of t).
Proof. destruct 1; [apply psim_zero|assumption]. Qed.
Lemma tsim_child0 t6 t : tsim t6 t -> tsim (child06 t6) (child0 t).
Proof. destruct 1; [constructor|assumption]. Qed.
Lemma tsim_child1 t6 t : tsim t6 t -> tsim (child16 t6) (child1 t).
Proof. destruct 1; [constructor|assumption]. Qed.
Lemma tsim_kid c l6 l r6 r : tsim l6 l -> tsim r6 r -> tsim (kid6 c l6 r6) (kid c l r).
Proof. destruct c; auto. Qed.
Lemma tsim_setl c x6 x l6 l : tsim x6 x -> tsim l6 l -> tsim (setl6 c x6 l6) (setl c x l).
Proof. destruct c; auto. Qed.
Lemma tsim_setr c x6 x l6 l : tsim x6 x -> tsim l6 l -> tsim (setr6 c x6 l6) (setr c x l).
Proof. destruct c; auto. Qed.
Lemma tsim_mk p6 p d a l6 l r6 r : psim p6 p -> tsim l6 l -> tsim r6 r -> tsim (mk6 p6 d a l6 r6) (mk p d a l r).
Proof.
  intros P L R. unfold mk6, mk. rewrite (tsim_NumNodes _ _ L), (tsim_NumNodes _ _ R), (tsim_height _ _ L), (tsim_height _ _ R).
  constructor; assumption.
Qed.
Lemma tsim_flatten p6 p a l6 l r6 r : psim p6 p -> tsim l6 l -> tsim r6 r ->
  rsim (fun x y => fst (fst x) = fst (fst y) /\ tsim (snd (fst x)) (snd (fst y)) /\ tsim (snd x) (snd y)) (flatten6 p6 a l6 r6) (flatten p a l r).
Proof.
  intros P L R. unfold flatten6, flatten. destruct a; [cbn; repeat split; constructor|].
  destruct L as [|? ? ? ? ? ? ? ? ? ? P1 L1 R1]; [exact I|]. destruct R as [|? ? ? ? ? ? ? ? ? ? P2 L2 R2]; [exact I|].
  rewrite (psim_len _ _ P), (psim_len _ _ P1), (psim_len _ _ P2).
  repeat match goal with |- context [if ?b then _ else _] => destruct b end; cbn; repeat split; constructor; assumption.
Qed.
Lemma tsim_mk_opt fl p6 p d a l6 l r6 r : psim p6 p -> tsim l6 l -> tsim r6 r ->
  rsim tsim (mk_opt6 fl p6 d a l6 r6) (mk_opt fl p d a l r).
Proof.
  intros P L R. unfold mk_opt6, mk_opt. destruct fl; [|apply tsim_mk; assumption].
  eapply rsim_bind; [apply tsim_flatten; eassumption|]. intros [[a' x6] y6] [[b' x] y] (E & X & Y). cbn [fst snd] in *. subst b'.
  apply tsim_mk; assumption.
Qed.

(* ---- insertion ---- *)
Definition tesim (x : trie6 T * option terr) (y : trie T * option terr) : Prop := tsim (fst x) (fst y) /\ snd x = snd y.
Lemma insert_nil_sim p6 p d o : psim p6 p -> tesim (insert_nil6 p6 d o) (insert_nil p d o).
Proof.
  intros P. unfold insert_nil6, insert_nil. destruct (o_insert o); cbn [negb]; split; cbn [fst snd]; auto; try constructor.
  - exact P.
  - constructor.
  - constructor.
Qed.
Lemma insert_sim t6 t : tsim t6 t -> forall p6 p d o, psim p6 p -> rsim tesim (insert6 t6 p6 d o) (insert 128 t p d o).
Proof.
  induction 1 as [|q6 q dd s h a l6 l r6 r Q L IHL R IHR]; intros p6 p d o P; cbn [insert6 insert].
  - apply insert_nil_sim. exact P.
  - assert (ME : tsim (Node6 q6 dd s h a l6 r6) (Node q dd s h a l r)) by (constructor; assumption).
    rewrite (psim_compare q6 q p6 p Q P). destruct (compare 128 q p) as [[[result reversed] common] child]. destruct result.
    + destruct (a && negb (o_update o)); [split; [exact ME|reflexivity]|].
      destruct (negb a && negb (o_insert o)); [split; [exact ME|reflexivity]|].
      destruct (o_flatten o); [split; [exact ME|reflexivity]|].
      apply rsim_same. intros keep. split; [|reflexivity]. apply tsim_mk; assumption.
    + destruct (o_flatten o && a); [split; [exact ME|reflexivity]|].
      apply (rsim_bind tesim).
      * destruct child; [apply IHR|apply IHL]; exact P.
      * intros [n6 e6] [n e] [X E]. cbn [fst snd] in *. subst e6. destruct e as [e|]; [split; [exact ME|reflexivity]|].
        apply (rsim_bind tsim); [apply tsim_mk_opt; [exact Q| |]; [apply tsim_setl|apply tsim_setr]; assumption|].
        intros x y XY. split; [exact XY|reflexivity].
    + destruct (negb (o_insert o)); [split; [exact ME|reflexivity]|].
      apply (rsim_bind tsim); [apply tsim_mk_opt; [exact P| |]; [apply tsim_setl|apply tsim_setr]; try exact ME; constructor|].
      intros x y XY. split; [exact XY|reflexivity].
    + pose proof (insert_nil_sim p6 p d o P) as X. destruct (insert_nil6 p6 d o) as [n6 e6], (insert_nil p d o) as [n e]. destruct X as [X E].
      cbn [fst snd] in *. subst e6. destruct e as [e|]; [split; [exact ME|reflexivity]|].
      destruct (xorb child reversed).
      * apply (rsim_bind tsim); [apply tsim_mk_opt; [apply psim_join; exact Q| |]; assumption|]. intros x y XY. split; [exact XY|reflexivity].
      * apply (rsim_bind tsim); [apply tsim_mk_opt; [apply psim_join; exact Q| |]; assumption|]. intros x y XY. split; [exact XY|reflexivity].
Qed.
Lemma Insert_sim t6 t p6 p v : tsim t6 t -> psim p6 p -> rsim tesim (Insert6 t6 p6 v) (Insert 128 t p v).
Proof. intros. apply insert_sim; assumption. Qed.
Lemma Update_sim t6 t p6 p v eq : tsim t6 t -> psim p6 p -> rsim tesim (Update6 t6 p6 v eq) (Update 128 t p v eq).
Proof. intros. apply insert_sim; assumption. Qed.
Lemma InsertOrUpdate_sim t6 t p6 p v eq : tsim t6 t -> psim p6 p -> rsim tsim (InsertOrUpdate6 t6 p6 v eq) (InsertOrUpdate 128 t p v eq).
Proof.
  intros H P. unfold InsertOrUpdate6, InsertOrUpdate. apply (rsim_bind tesim); [apply insert_sim; assumption|].
  intros [n6 e6] [n e] [X E]. cbn [fst snd] in *. subst e6. destruct e; [exact I|exact X].
Qed.
Definition tdsim (x : trie6 T * option T) (y : trie T * option T) : Prop := tsim (fst x) (fst y) /\ snd x = snd y.
Lemma goi_sim t6 t p6 p v : tsim t6 t -> psim p6 p -> rsim tdsim (goi_insert6 t6 p6 v) (goi_insert 128 t p v).
Proof.
  intros H P. unfold goi_insert6, goi_insert. apply (rsim_bind tesim); [apply Insert_sim; assumption|].
  intros [n6 e6] [n e] [X E]. cbn [fst snd] in *. subst e6. destruct e; [exact I|]. split; [exact X|reflexivity].
Qed.
Lemma GetOrInsert_sim t6 t : tsim t6 t -> forall p6 p v, psim p6 p -> rsim tdsim (GetOrInsert6 t6 p6 v) (GetOrInsert 128 t p v).
Proof.
  induction 1 as [|q6 q dd s h a l6 l r6 r Q L IHL R IHR]; intros p6 p v P; cbn [GetOrInsert6 GetOrInsert].
  - apply goi_sim; [constructor|exact P].
  - assert (ME : tsim (Node6 q6 dd s h a l6 r6) (Node q dd s h a l r)) by (constructor; assumption).
    rewrite (psim_len _ _ P), (psim_len _ _ Q), (psim_contains q6 q p6 p Q P).
    destruct (plen p <? plen q); [apply goi_sim; assumption|].
    destruct (contains 128 q p) as [[[matches exact] common] child]. destruct matches; cbn [negb]; [|apply goi_sim; assumption].
    destruct exact; cbn [negb].
    + destruct a; cbn [negb]; [split; [exact ME|reflexivity]|apply goi_sim; assumption].
    + apply (rsim_bind tdsim); [destruct child; [apply IHR|apply IHL]; exact P|].
      intros [n6 x6] [n x] [X E]. cbn [fst snd] in *. subst x6. split; [|reflexivity]. cbn [fst].
      apply tsim_mk; [exact Q|apply tsim_setl|apply tsim_setr]; assumption.
Qed.
(* ---- lookup ---- *)
Definition pdsim (x : prefix6 * option T) (y : prefix * option T) : Prop := psim (fst x) (fst y) /\ snd x = snd y.
Lemma Match_sim t6 t : tsim t6 t -> forall p6 p, psim p6 p -> optsim pdsim (Match6 t6 p6) (Match 128 t p).
Proof.
  induction 1 as [|q6 q dd s h a l6 l r6 r Q L IHL R IHR]; intros p6 p P; cbn [Match6 Match]; [exact I|].
  rewrite (psim_len _ _ P), (psim_len _ _ Q), (psim_contains q6 q p6 p Q P).
  destruct (plen p <? plen q); [exact I|]. destruct (contains 128 q p) as [[[matches exact] common] child].
  destruct matches; cbn [negb]; [|exact I].
  assert (X : optsim pdsim (if negb exact then Match6 (kid6 child l6 r6) p6 else None) (if negb exact then Match 128 (kid child l r) p else None)).
  { destruct exact; [exact I|]. destruct child; [apply IHR|apply IHL]; exact P. }
  destruct (if negb exact then Match6 (kid6 child l6 r6) p6 else None), (if negb exact then Match 128 (kid child l r) p else None); try contradiction X; [exact X|].
  destruct a; cbn [negb]; [|exact I]. split; [exact Q|reflexivity].
Qed.
Lemma IsEmpty_sim t6 t : tsim t6 t -> IsEmpty6 t6 = IsEmpty t.
Proof. induction 1 as [|? ? ? ? ? a ? ? ? ? Q L IHL R IHR]; cbn [IsEmpty6 IsEmpty]; [reflexivity|]. rewrite IHL, IHR. reflexivity. Qed.
Lemma isValidLen_sim t6 t : tsim t6 t -> forall n, isValidLen6 t6 n = isValidLen t n.
Proof.
  induction 1 as [|q6 q dd s h a l6 l r6 r Q L IHL R IHR]; intros n; cbn [isValidLen6 isValidLen]; [reflexivity|].
  rewrite (tsim_isnil _ _ L), (tsim_isnil _ _ R), (tsim_NumNodes _ _ L), (tsim_NumNodes _ _ R), (tsim_height _ _ L), (tsim_height _ _ R), (psim_len _ _ Q), IHL, IHR. reflexivity.
Qed.
(* ---- deletion ---- *)
Lemma del_sim t6 t : tsim t6 t -> forall p6 p, psim p6 p -> tesim (del6 t6 p6) (del 128 t p).
Proof.
  induction 1 as [|q6 q dd s h a l6 l r6 r Q L IHL R IHR]; intros p6 p P; cbn [del6 del].
  - split; [constructor|reflexivity].
  - assert (ME : tsim (Node6 q6 dd s h a l6 r6) (Node q dd s h a l r)) by (constructor; assumption).
    rewrite (psim_compare q6 q p6 p Q P). destruct (compare 128 q p) as [[[result reversed] common] child]. destruct result; try (split; [exact ME|reflexivity]).
    + rewrite (tsim_isnil _ _ L), (tsim_isnil _ _ R). destruct (is_nil l); [split; [exact R|reflexivity]|].
      destruct (is_nil r); [split; [exact L|reflexivity]|]. split; [apply tsim_mk; assumption|reflexivity].
    + assert (X : tesim (del6 (kid6 child l6 r6) p6) (del 128 (kid child l r) p)) by (destruct child; [apply IHR|apply IHL]; exact P).
      destruct (del6 (kid6 child l6 r6) p6) as [n6 e6], (del 128 (kid child l r) p) as [n e]. destruct X as [X E]. cbn [fst snd] in *. subst e6.
      destruct e as [e|]; [split; [exact ME|reflexivity]|]. rewrite (tsim_isnil _ _ X).
      destruct (is_nil n && negb a); split; cbn [fst snd]; auto; [apply tsim_kid; assumption|].
      apply tsim_mk; [exact Q|apply tsim_setl|apply tsim_setr]; assumption.
Qed.

(* ---- functions that compare pointers ---- *)
Variable peq6 : trie6 T -> trie6 T -> bool.
Variable peq : trie T -> trie T -> bool.
Hypothesis Hpeq : forall a6 a b6 b, tsim a6 a -> tsim b6 b -> peq6 a6 b6 = peq a b.

Lemma Equal_sim eq t6 t : tsim t6 t -> forall u6 u, tsim u6 u -> rsim Logic.eq (Equal6 peq6 t6 u6 eq) (Equal peq t u eq).
Proof.
  induction 1 as [|q6 q dd s h a l6 l r6 r Q L IHL R IHR]; intros u6 u U.
  - cbn [Equal6 Equal]. rewrite (Hpeq Nil6 Nil u6 u ltac:(constructor) U). destruct (peq Nil u); [reflexivity|]. destruct U; reflexivity.
  - cbn [Equal6 Equal]. rewrite (Hpeq (Node6 q6 dd s h a l6 r6) (Node q dd s h a l r) u6 u) by (try exact U; constructor; assumption).
    destruct (peq (Node q dd s h a l r) u); [reflexivity|]. destruct U as [|q6' q' d' s' h' a' l6' l' r6' r' Q' L' R']; [reflexivity|].
    destruct (negb (Bool.eqb a a')); [reflexivity|]. rewrite (psim_eqb _ _ _ _ Q Q'). destruct (negb (prefix_eqb q q')); [reflexivity|].
    apply rsim_same. intros same. destruct (negb same); [reflexivity|].
    apply (rsim_bind Logic.eq); [apply IHL; exact L'|]. intros x y <-. destruct (negb x); [reflexivity|].
    apply (rsim_bind Logic.eq); [apply IHR; exact R'|]. intros x0 y <-. destruct (negb x0); reflexivity.
Qed.

(* callbacks and their states *)
Section State.
Context {S6 S : Type}.
Variable RS : S6 -> S -> Prop.
Definition ssim : S6 * bool -> S * bool -> Prop := pairsim RS Logic.eq.
Definition cbsim (f6 : trie6 T -> S6 -> S6 * bool) (f : trie T -> S -> S * bool) : Prop :=
  forall t6 t st6 st, tsim t6 t -> RS st6 st -> ssim (f6 t6 st6) (f t st).
Definition cb2sim (f6 : trie6 T -> trie6 T -> S6 -> S6 * bool) (f : trie T -> trie T -> S -> S * bool) : Prop :=
  forall t6 t u6 u st6 st, tsim t6 t -> tsim u6 u -> RS st6 st -> ssim (f6 t6 u6 st6) (f t u st).
Record hsim (H6 : diffHandler6 S6) (H : diffHandler S) : Prop := {
  h_removed : optsim cbsim (Removed6 H6) (Removed H);
  h_added : optsim cbsim (Added6 H6) (Added H);
  h_modified : optsim cb2sim (Modified6 H6) (Modified H);
  h_same : optsim cbsim (Same6 H6) (Same H) }.
Record isim (H6 : innerHandler6 S6) (H : innerHandler S) : Prop := {
  i_removed : forall t6 t st6 st, tsim t6 t -> RS st6 st -> rsim ssim (iRemoved6 H6 t6 st6) (iRemoved H t st);
  i_added : forall t6 t st6 st, tsim t6 t -> RS st6 st -> rsim ssim (iAdded6 H6 t6 st6) (iAdded H t st);
  i_modified : forall t6 t u6 u st6 st, tsim t6 t -> tsim u6 u -> RS st6 st -> rsim ssim (iModified6 H6 t6 u6 st6) (iModified H t u st);
  i_same : iSameNil6 H6 = iSameNil H }.

Lemma noop_sim f6 f : optsim cbsim f6 f -> cbsim (noop6 f6) (noop f).
Proof. destruct f6, f; cbn; try contradiction; auto. intros _ t6 t st6 st _ R. split; [exact R|reflexivity]. Qed.
Lemma noop2_sim f6 f : optsim cb2sim f6 f -> cb2sim (noop26 f6) (noop2 f).
Proof. destruct f6, f; cbn; try contradiction; auto. intros _ t6 t u6 u st6 st _ _ R. split; [exact R|reflexivity]. Qed.
Lemma wrap_sim H6 H eq : hsim H6 H -> isim (wrap6 H6 eq) (wrap H eq).
Proof.
  intros [HR HA HM HS]. pose proof (noop_sim _ _ HR) as NR. pose proof (noop_sim _ _ HA) as NA. pose proof (noop2_sim _ _ HM) as NM. pose proof (noop_sim _ _ HS) as NS.
  constructor; cbn [wrap6 wrap iRemoved6 iRemoved iAdded6 iAdded iModified6 iModified iSameNil6 iSameNil].
  - intros t6 t st6 st X R. rewrite (tsim_active _ _ X). destruct (active t); [apply NR; assumption|split; [exact R|reflexivity]].
  - intros t6 t st6 st X R. rewrite (tsim_active _ _ X). destruct (active t); [apply NA; assumption|split; [exact R|reflexivity]].
  - intros t6 t u6 u st6 st X Y R. rewrite (tsim_active _ _ X), (tsim_active _ _ Y), (tsim_data _ _ X), (tsim_data _ _ Y).
    destruct (active t && active u).
    + apply rsim_same. intros e. destruct (negb e); [apply NM; assumption|apply NS; assumption].
    + destruct (active t); [apply NR; assumption|]. destruct (active u); [apply NA; assumption|split; [exact R|reflexivity]].
  - destruct (Same6 H6), (Same H); try contradiction HS; reflexivity.
Qed.

Lemma diff_sim H6 H : isim H6 H -> forall f l6 l r6 r st6 st, tsim l6 l -> tsim r6 r -> RS st6 st ->
  rsim ssim (diff6 peq6 f l6 r6 H6 st6) (diff 128 peq f l r H st).
Proof.
  intros HH. induction f as [|f IH]; intros l6 l r6 r st6 st L R RST; [exact I|].
  cbn [diff6 diff]. rewrite (Hpeq l6 l r6 r L R), (i_same _ _ HH).
  destruct (peq l r && iSameNil H); [split; [exact RST|reflexivity]|].
  set (g6 := fun result (child : bool) =>
    '(st1, go) <- match result with
          | compareSame => iModified6 H6 l6 r6 st6
          | compareContains => iRemoved6 H6 l6 st6
          | compareIsContained => iAdded6 H6 r6 st6
          | compareDisjoint => Ok (st6, true)
          end ;;
        if negb go then Ok (st1, false)
        else
          let '(nl0, nl1, nr0, nr1) :=
            match result with
            | compareSame => (child06 l6, child16 l6, child06 r6, child16 r6)
            | compareIsContained => (setl6 child l6 Nil6, setr6 child l6 Nil6, child06 r6, child16 r6)
            | compareContains => (child06 l6, child16 l6, setl6 child r6 Nil6, setr6 child r6 Nil6)
            | compareDisjoint => if child then (l6, Nil6, Nil6, r6) else (Nil6, l6, r6, Nil6)
            end in
          '(st2, go2) <- diff6 peq6 f nl0 nr0 H6 st1 ;;
          if negb go2 then Ok (st2, false)
          else
            '(st3, go3) <- diff6 peq6 f nl1 nr1 H6 st2 ;;
            if negb go3 then Ok (st3, false) else Ok (st3, true)).
  set (g := fun result (child : bool) =>
    '(st1, go) <- match result with
          | compareSame => iModified H l r st
          | compareContains => iRemoved H l st
          | compareIsContained => iAdded H r st
          | compareDisjoint => Ok (st, true)
          end ;;
        if negb go then Ok (st1, false)
        else
          let '(nl0, nl1, nr0, nr1) :=
            match result with
            | compareSame => (child0 l, child1 l, child0 r, child1 r)
            | compareIsContained => (setl child l Nil, setr child l Nil, child0 r, child1 r)
            | compareContains => (child0 l, child1 l, setl child r Nil, setr child r Nil)
            | compareDisjoint => if child then (l, Nil, Nil, r) else (Nil, l, r, Nil)
            end in
          '(st2, go2) <- diff 128 peq f nl0 nr0 H st1 ;;
          if negb go2 then Ok (st2, false)
          else
            '(st3, go3) <- diff 128 peq f nl1 nr1 H st2 ;;
            if negb go3 then Ok (st3, false) else Ok (st3, true)).
  assert (GG : forall result child, rsim ssim (g6 result child) (g result child)).
  { intros result child. unfold g6, g. apply (rsim_bind ssim).
    - destruct result; [apply HH|apply HH|apply HH|split; [exact RST|reflexivity]]; assumption.
    - intros [s6 go6] [s go] [RS1 E]. cbn [fst snd] in *. subst go6. destruct (negb go); [split; [exact RS1|reflexivity]|].
      assert (K : forall a6 a b6 b c6 c d6 d, tsim a6 a -> tsim b6 b -> tsim c6 c -> tsim d6 d ->
        rsim ssim ('(st2, go2) <- diff6 peq6 f a6 c6 H6 s6 ;; if negb go2 then Ok (st2, false) else
                   '(st3, go3) <- diff6 peq6 f b6 d6 H6 st2 ;; if negb go3 then Ok (st3, false) else Ok (st3, true))
                  ('(st2, go2) <- diff 128 peq f a c H s ;; if negb go2 then Ok (st2, false) else
                   '(st3, go3) <- diff 128 peq f b d H st2 ;; if negb go3 then Ok (st3, false) else Ok (st3, true))).
      { intros a6 a b6 b c6 c d6 d A B C D. apply (rsim_bind ssim); [apply IH; assumption|].
        intros [s26 go26] [s2 go2] [RS2 E]. cbn [fst snd] in *. subst go26. destruct (negb go2); [split; [exact RS2|reflexivity]|].
        apply (rsim_bind ssim); [apply IH; assumption|].
        intros [s36 go36] [s3 go3] [RS3 E]. cbn [fst snd] in *. subst go36. destruct (negb go3); split; auto. }
      destruct result; try destruct child; cbn [setl6 setl setr6 setr]; apply K;
        auto using tsim_child0, tsim_child1, ts_nil. }
  clear IH. unfold g6, g in GG. clear g6 g.
  destruct L as [|q6 q dd s h a l06 l0 l16 l1 Q L0 L1]; destruct R as [|q6' q' dd' s' h' a' r06 r0 r16 r1 Q' R0 R1].
  - split; [exact RST|reflexivity].
  - apply (GG compareIsContained false).
  - apply (GG compareContains false).
  - rewrite (psim_compare _ _ _ _ Q Q'). destruct (compare 128 q q') as [[[result rev] common] child]. apply (GG result child).
Qed.
Lemma Diff_sim H6 H eq l6 l r6 r st6 st : hsim H6 H -> tsim l6 l -> tsim r6 r -> RS st6 st ->
  rsim ssim (Diff6 peq6 l6 r6 H6 eq st6) (Diff 128 peq l r H eq st).
Proof. intros. apply diff_sim; auto. apply wrap_sim. assumption. Qed.
Definition kvsim (f6 : prefix6 -> option T -> S6 -> S6 * bool) (f : prefix -> option T -> S -> S * bool) : Prop :=
  forall p6 p d st6 st, psim p6 p -> RS st6 st -> ssim (f6 p6 d st6) (f p d st).
Lemma Walk_sim t6 t f6 f st6 st : tsim t6 t -> optsim kvsim f6 f -> RS st6 st ->
  rsim ssim (Walk6 peq6 t6 f6 st6) (Walk 128 peq t f st).
Proof.
  intros H F R. unfold Walk6, Walk. apply Diff_sim; auto; [|constructor]. constructor; cbn; auto.
  intros u6 u s6 s U RSS. pose proof (tsim_prefix _ _ U) as P. rewrite (tsim_data _ _ U).
  destruct f6, f; try contradiction F; [apply F; assumption|split; [exact RSS|reflexivity]].
Qed.
End State.

(* ---- Aggregate and Map ---- *)
Lemma createReturnValue_sim t6 t a d l6 l r6 r eq : tsim t6 t -> tsim l6 l -> tsim r6 r ->
  rsim tsim (createReturnValue6 peq6 t6 a d l6 r6 eq) (createReturnValue peq t a d l r eq).
Proof.
  intros H L R. destruct H as [|q6 q dd s h b ml6 ml mr6 mr Q ML MR]; cbn [createReturnValue6 createReturnValue]; [constructor|].
  rewrite (Hpeq _ _ _ _ L ML), (Hpeq _ _ _ _ R MR). apply rsim_same. intros same. destruct same; [constructor; assumption|].
  destruct a; [|apply tsim_mk; assumption]. apply rsim_same. intros rep. apply tsim_mk; assumption.
Qed.
Lemma aggregate_sim eq t6 t : tsim t6 t -> forall u, rsim tsim (aggregate6 peq6 t6 u eq) (aggregate peq t u eq).
Proof.
  induction 1 as [|q6 q dd s h a l6 l r6 r Q L IHL R IHR]; intros u; cbn [aggregate6 aggregate]; [constructor|].
  apply rsim_same. intros [[u1 isA] data].
  apply (rsim_bind tsim); [apply IHL|]. intros l16 l1 L1. apply (rsim_bind tsim); [apply IHR|]. intros r16 r1 R1.
  rewrite (tsim_active _ _ L1), (tsim_active _ _ R1), (tsim_data _ _ L1), (tsim_data _ _ R1), (psim_len _ _ (tsim_prefix _ _ L1)), (psim_len _ _ (tsim_prefix _ _ R1)), (psim_len _ _ Q).
  apply rsim_same. intros ca.
  assert (ME : tsim (Node6 q6 dd s h a l6 r6) (Node q dd s h a l r)) by (constructor; assumption).
  destruct ca; [apply createReturnValue_sim; [exact ME|constructor|constructor]|].
  rewrite (tsim_isnil _ _ L1), (tsim_isnil _ _ R1). destruct isA; [apply createReturnValue_sim; assumption|].
  destruct (is_nil l1); [exact R1|]. destruct (is_nil r1); [exact L1|]. apply createReturnValue_sim; assumption.
Qed.
Lemma Aggregate_sim eq t6 t : tsim t6 t -> rsim tsim (Aggregate6 peq6 t6 eq) (Aggregate peq t eq).
Proof. intros H. apply aggregate_sim. exact H. Qed.

Lemma Map_sim {S6 S} (RS : S6 -> S -> Prop) m6 m eq :
  (forall p6 p d st6 st, psim p6 p -> RS st6 st -> pairsim RS Logic.eq (m6 p6 d st6) (m p d st)) ->
  forall t6 t, tsim t6 t -> forall st6 st, RS st6 st -> rsim (pairsim RS tsim) (Map6 t6 m6 eq st6) (Map t m eq st).
Proof.
  intros HM t6 t H. induction H as [|q6 q dd s h a l6 l r6 r Q L IHL R IHR]; intros st6 st X; cbn [Map6 Map]; [split; [exact X|constructor]|].
  pose proof (HM q6 q dd st6 st Q X) as Y. destruct (m6 q6 dd st6) as [s16 n6], (m q dd st) as [s1 n]. destruct Y as [Y E]. cbn [fst snd] in *. subst n6.
  apply rsim_same. intros e. apply (rsim_bind (pairsim RS tsim)); [apply IHL; exact Y|]. intros [s26 l16] [s2 l1] [Y2 L1]. cbn [fst snd] in *.
  apply (rsim_bind (pairsim RS tsim)); [apply IHR; exact Y2|]. intros [s36 r16] [s3 r1] [Y3 R1]. cbn [fst snd] in *.
  split; [exact Y3|]. apply tsim_mk; assumption.
Qed.
End Sim.
