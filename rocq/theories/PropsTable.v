(* PropsTable.v - the table properties C08-C15, C35, C36 as theorems. *)
From Verif Require Export TableThm KeyMore.
From Coq Require Import Arith Sorted Permutation ZifyBool ZifyNat ZifyN.

Section Props.
Variable W : N.
Hypothesis IPW : ip_width W.
Context {T : Type}.
Variable zeroT : T.
Variable box : T -> option T.
Hypothesis Hbox : forall v, unbox zeroT (box v) = v.
Variable goeq : T -> T -> res bool.
Notation key := (key W).
Notation wf := (wf W).
Notation fk := (fk W).
Notation unbox := (unbox zeroT).
Notation isbox := (isbox box).
Notation boxed := (boxed isbox).
Notation Get := (Get W zeroT).
Notation LongestMatch := (LongestMatch W zeroT).
Notation reachable := (reachable W zeroT box goeq).
Notation decides := (decides box).

Let HW : 0 < W /\ W < 2 ^ 15 := ip_HW W IPW.

(* What a user can see stored for the prefix q: the prefix as it was given when
   the entry was last written (it may have other host bits than q) and its value. *)
Definition stored (t : tableX T) (q : prefix) : option (prefix * T) :=
  let '(v, found, p) := LongestMatch t (Some q) in
  if found && (plen p =? plen q) then Some (p, v) else None.

Definition ub (e : prefix * option T) : prefix * T := (fst e, unbox (snd e)).

Lemma stored_fk t q : wf [] (tx_trie t) -> wf_prefix W q -> stored t q = option_map ub (fk (key q) (tx_trie t)).
Proof.
  intros Hw Hq. unfold stored. rewrite LongestMatch_eq.
  pose proof (fun e => Match_exact W HW (tx_trie t) [] q e Hw Hq) as M.
  destruct (Match W (tx_trie t) q) as [[np d]|] eqn:E; cbn [andb].
  - destruct (plen np =? plen q) eqn:L.
    + apply N.eqb_eq in L. destruct (M (np, d)) as [M1 _]. rewrite (M1 (conj eq_refl L)). reflexivity.
    + destruct (fk (key q) (tx_trie t)) as [[q' d']|] eqn:F; auto.
      destruct (M (q', d')) as [_ M2]. destruct (M2 eq_refl) as [M3 M4]. injection M3 as -> ->.
      cbn in M4. apply N.eqb_eq in M4. congruence.
  - destruct (fk (key q) (tx_trie t)) as [[q' d']|] eqn:F; auto.
    destruct (M (q', d')) as [_ M2]. destruct (M2 eq_refl) as [M3 _]. discriminate.
Qed.

Lemma rinv t : reachable t -> inv W box t.
Proof. apply reach_inv; auto. Qed.
Lemma rwf t : reachable t -> wf [] (tx_trie t).
Proof. intros H. apply rinv in H. apply H. Qed.
Lemma ewf (t : trie T) e : wf [] t -> In e (entries t) -> wf_prefix W (fst e).
Proof. intros H He. apply entries_wf in H. rewrite Forall_forall in H. apply H; auto. Qed.

(* ---------------- C08 ---------------- *)

(* A fresh table, subjected to any history of calls, never panics, returns what
   a plain map returns, and then answers every Get as the map does.  (For
   Remove's boolean only the direction "an entry existed -> true" is claimed
   here; see C09.) *)
Theorem C08_table_is_a_map : forall (t0 : tableX T) (g : T -> T -> bool) (os : list (op T)),
  (NewTable_ goeq = Some t0 \/ exists h, NewTableCustomCompare_ h = Some t0) ->
  decides t0 g ->
  Forall (fun o => wf_prefix W (op_prefix o)) os ->
  exists t outs,
    runs W zeroT box (Some t0) os = Ok (Some t, outs) /\
    Forall2 (fun '(o, s) x => agree o s x) (combine os (snd (sruns W g sempty os))) outs /\
    forall q, wf_prefix W q ->
      tbl_Get W zeroT (Some t) (Some q) =
      match fst (sruns W g sempty os) (pkey W q) with Some (_, v) => (v, true) | None => (zeroT, false) end
      /\ stored t q = fst (sruns W g sempty os) (pkey W q).
Proof.
  intros t0 g os H0 Hd Hos.
  assert (R0 : Rel W box sempty t0) by (apply Rel_empty; destruct H0 as [H|[h H]]; injection H as <-; reflexivity).
  destruct (runs_step W HW zeroT box Hbox g os _ _ R0 Hd Hos) as (t & outs & E & _ & R & A).
  exists t, outs. split; auto. split; auto. intros q Hq. split.
  - rewrite tbl_Get_Get. apply (Rel_Get W HW zeroT box); auto.
  - destruct R as ((Hw & _) & R). rewrite stored_fk by auto. rewrite R by auto.
    destruct (fst (sruns W g sempty os) (pkey W q)) as [[q' v]|]; cbn; auto. unfold ub; cbn. rewrite Hbox. auto.
Qed.

(* host bits of a key never matter, in any table a program can obtain *)
Theorem C08_host_bits : forall t p q, reachable t -> wf_prefix W p -> wf_prefix W q ->
  pkey W p = pkey W q -> Get t (Some p) = Get t (Some q).
Proof.
  intros t p q Ht Hp Hq E. apply rwf in Ht. rewrite !(Get_fk W HW) by auto.
  apply (key_eq_iff W) in E; auto. rewrite E. auto.
Qed.

(* Get and stored agree in every reachable table *)
Theorem C08_get_stored : forall t q, reachable t -> wf_prefix W q ->
  Get t (Some q) = match stored t q with Some (_, v) => (v, true) | None => (zeroT, false) end.
Proof.
  intros t q Ht Hq. apply rwf in Ht. rewrite stored_fk, (Get_fk W HW) by auto.
  destruct (fk (key q) (tx_trie t)) as [[p d]|]; auto.
Qed.

(* ---------------- C09 ---------------- *)

(* Remove deletes exactly the entry for p, returns false only when it changes
   nothing, and returns true exactly when an entry for p exists OR both halves
   of p contain entries (the latter being the defect, see C09_refuted). *)
Theorem C09_remove_partial : forall t p, reachable t -> wf_prefix W p ->
  exists t' b, tbl_Remove W (Some t) (Some p) = Ok (Some t', b) /\
    (forall q, wf_prefix W q ->
       Get t' (Some q) = if eqk (pkey W q) (pkey W p) then (zeroT, false) else Get t (Some q)) /\
    (b = false -> t' = t) /\
    (b = true <->
       snd (Get t (Some p)) = true \/
       exists q0 q1, wf_prefix W q0 /\ wf_prefix W q1 /\
         snd (Get t (Some q0)) = true /\ snd (Get t (Some q1)) = true /\
         covers W (half W false p) q0 /\
         covers W (half W true p) q1 /\ plen p < W).
Proof.
  intros t p Ht Hp. apply rwf in Ht.
  unfold tbl_Remove. cbn [prefixI].
  pose proof (del_spec W HW _ [] p Ht Hp (pre_nil _)) as R.
  pose proof (del_err W HW _ [] p Ht Hp (pre_nil _)) as R5.
  destruct (del W (tx_trie t) p) as [tr err]. destruct R as (R1 & R2 & R3 & R4). cbn [snd] in R5.
  eexists _, _. split; [reflexivity|]. split; [|split].
  - intros q Hq. rewrite !(Get_fk W HW) by auto. cbn [tx_trie set_trie]. rewrite R2. unfold upd.
    destruct (keq (key q) (key p)) as [E|E].
    + apply (key_eq_iff W) in E; auto. rewrite (proj2 (eqk_spec _ _) E). auto.
    + destruct (eqk (pkey W q) (pkey W p)) eqn:Q; auto.
      apply eqk_spec in Q. apply (key_eq_iff W) in Q; auto. congruence.
  - destruct err; [|discriminate]. intros _. rewrite R4 by discriminate. destruct t; reflexivity.
  - assert (B : (match err with None => true | Some _ => false end) = true <-> err = None) by (destruct err; split; congruence).
    rewrite B, R5. rewrite (Get_fk W HW) by auto.
    assert (OC : forall A B C D : Prop, (A <-> B) -> (C <-> D) -> (A \/ C <-> B \/ D)) by tauto.
    apply OC.
    { destruct (fk (key p) (tx_trie t)) as [[p' d]|]; cbn; split; congruence. }
    split.
    + intros (e0 & e1 & I0 & I1 & P0 & P1).
      pose proof (ewf _ _ Ht I0) as W0. pose proof (ewf _ _ Ht I1) as W1.
      assert (Hl : plen p < W).
      { apply pre_length in P0. rewrite app_length in P0. cbn in P0. destruct W0 as [_ W0].
        pose proof (nlen_key W p) as N1. pose proof (nlen_key W (fst e0)) as N2. unfold nlen, ekey in *. lia. }
      exists (fst e0), (fst e1). split; auto. split; auto.
      rewrite !(Get_fk W HW) by auto. change (key (fst e0)) with (ekey W e0). change (key (fst e1)) with (ekey W e1).
      rewrite (In_fk W _ _ _ Ht I0), (In_fk W _ _ _ Ht I1). destruct e0, e1. cbn [snd]. split; auto. split; auto.
      split; [|split; [|exact Hl]].
      * apply (covers_half W false); auto.
      * apply (covers_half W true); auto.
    + intros (q0 & q1 & W0 & W1 & G0 & G1 & C0 & C1 & Hl).
      rewrite (Get_fk W HW) in G0, G1 by auto.
      destruct (fk (key q0) (tx_trie t)) as [e0|] eqn:F0; [|discriminate].
      destruct (fk (key q1) (tx_trie t)) as [e1|] eqn:F1; [|discriminate].
      apply (fk_In W) in F0. apply (fk_In W) in F1. destruct F0 as [I0 K0]. destruct F1 as [I1 K1].
      exists e0, e1. split; auto. split; auto. rewrite K0, K1. split.
      * apply (covers_half W false); auto. 
      * apply (covers_half W true); auto.
Qed.

(* ---------------- C10 ---------------- *)
Theorem C10_longest_match : forall t q, reachable t -> wf_prefix W q ->
  match LongestMatch t (Some q) with
  | (v, true, p) =>
      wf_prefix W p /\ covers W p q /\ Get t (Some p) = (v, true) /\
      forall p', wf_prefix W p' -> snd (Get t (Some p')) = true -> covers W p' q -> covers W p' p
  | (v, false, p) =>
      v = zeroT /\ p = mkPrefix 0 0 /\
      forall p', wf_prefix W p' -> covers W p' q -> Get t (Some p') = (zeroT, false)
  end.
Proof.
  intros t q Ht Hq. apply rwf in Ht. rewrite LongestMatch_eq.
  pose proof (Match_spec W HW _ [] q Ht Hq) as M.
  destruct (Match W (tx_trie t) q) as [[p d]|].
  - destruct M as (I & P & B). pose proof (ewf _ _ Ht I) as Hp. cbn in Hp.
    split; auto. split; [apply covers_pre; auto|].
    pose proof (In_fk W _ _ _ Ht I) as F. unfold ekey in F; cbn in F.
    split; [rewrite (Get_fk W HW), F; auto|].
    intros p' Hp' G C. rewrite (Get_fk W HW) in G by auto.
    destruct (fk (key p') (tx_trie t)) as [e'|] eqn:F'; [|discriminate].
    apply (fk_In W) in F'. destruct F' as [I' K'].
    apply covers_pre; auto. rewrite <- K'. apply (B e'); auto. rewrite K'. apply covers_pre; auto.
  - split; auto. split; auto. intros p' Hp' C. rewrite (Get_fk W HW) by auto.
    destruct (fk (key p') (tx_trie t)) as [e'|] eqn:F'; auto.
    apply (fk_In W) in F'. destruct F' as [I' K']. exfalso. apply (M e' I'). rewrite K'. apply covers_pre; auto.
Qed.

(* ... hence, in particular, for a host address *)
Corollary C10_longest_match_host : forall t a, reachable t -> a < 2 ^ W ->
  match LongestMatch t (Some (mkPrefix a W)) with
  | (v, true, p) =>
      wf_prefix W p /\ in_prefix W p a /\ Get t (Some p) = (v, true) /\
      forall p', wf_prefix W p' -> snd (Get t (Some p')) = true -> in_prefix W p' a -> plen p' <= plen p
  | (_, false, _) => forall p', wf_prefix W p' -> in_prefix W p' a -> snd (Get t (Some p')) = false
  end.
Proof.
  intros t a Ht Ha. assert (Hq : wf_prefix W (mkPrefix a W)) by (split; cbn; [auto|lia]).
  pose proof (C10_longest_match t _ Ht Hq) as C.
  destruct (LongestMatch t (Some (mkPrefix a W))) as [[v b] p]. destruct b.
  - destruct C as (Hp & (C1 & C2) & C3 & C4). cbn in C2. repeat split; auto; try apply Hp.
    intros p' Hp' G I. destruct (C4 p' Hp' G) as [L _]; auto. split; auto. cbn. apply Hp'.
  - destruct C as (_ & _ & C). intros p' Hp' I. rewrite C; auto. split; auto. cbn. apply Hp'.
Qed.

(* ---------------- C11 ---------------- *)
Lemma run_until {A S} (f : A -> S -> S * bool) l st : run_list f l st = until_false f l st.
Proof. reflexivity. Qed.
Lemma until_map {A B S} (h : A -> B) (f : B -> S -> S * bool) l st :
  until_false f (map h l) st = until_false (fun x => f (h x)) l st.
Proof. revert st. induction l as [|x l IH]; intros st; cbn; auto. destruct (f (h x) st) as [s []]; auto. Qed.
Lemma until_ext {A S} (f g : A -> S -> S * bool) l st :
  (forall x st, f x st = g x st) -> until_false f l st = until_false g l st.
Proof. intros H. revert st. induction l as [|x l IH]; intros st; cbn; auto. rewrite H. destruct (g x st) as [s []]; auto. Qed.

Lemma SS_map {A B} (h : A -> B) (R : A -> A -> Prop) (R' : B -> B -> Prop) (P : A -> Prop) l :
  Forall P l -> (forall x y, P x -> P y -> R x y -> R' (h x) (h y)) -> StronglySorted R l -> StronglySorted R' (map h l).
Proof.
  intros HP H S. induction S as [|x l S IH F]; cbn; [constructor|].
  inversion HP as [|? ? Px Pl]; subst. constructor; auto.
  rewrite Forall_forall in *. intros y Hy. apply in_map_iff in Hy. destruct Hy as (z & <- & Hz). auto.
Qed.

(* Walk visits the list of all entries, which is strictly sorted (so duplicate
   free), until the callback first returns false. *)
Theorem C11_walk : forall t, reachable t ->
  exists L : list (prefix * T),
    (forall p v, In (p, v) L <-> wf_prefix W p /\ stored t p = Some (p, v)) /\
    StronglySorted (fun e f => lex_lt W (fst e) (fst f)) L /\
    forall peq : trie T -> trie T -> bool, (forall a b, peq a b = true -> a = b) ->
    forall (S : Type) (cb : prefix -> T -> S -> S * bool) (st : S),
      tbl_Walk W zeroT peq t cb st = Ok (until_false (fun e => cb (fst e) (snd e)) L st).
Proof.
  intros t Ht. pose proof (rinv _ Ht) as (Hw & Hb). exists (map ub (entries (tx_trie t))). split; [|split].
  - intros p v. rewrite in_map_iff. split.
    + intros ([p' d] & E & I). unfold ub in E; cbn in E. injection E as -> <-.
      pose proof (ewf _ _ Hw I) as Hp. cbn in Hp. split; auto.
      rewrite stored_fk by auto. pose proof (In_fk W _ _ _ Hw I) as F. unfold ekey in F; cbn in F. rewrite F. reflexivity.
    + intros (Hp & E). rewrite stored_fk in E by auto. destruct (fk (key p) (tx_trie t)) as [e|] eqn:F; [|discriminate].
      cbn [option_map] in E. assert (E2 : ub e = (p, v)) by congruence. exists e. split; auto. apply (fk_In W) in F. tauto.
  - eapply (SS_map ub (@elt W T) _ (fun e => wf_prefix W (fst e))).
    + apply entries_wf in Hw. eapply Forall_impl; [|exact Hw]. intros e [He _]. exact He.
    + intros x y Hx Hy H. apply blt_lex; auto.
    + apply (entries_sorted W []); auto.
  - intros peq Hs S cb st. unfold tbl_Walk. rewrite (Walk_run W HW (fun _ _ => false) peq []); auto.
    rewrite run_until, until_map. reflexivity.
Qed.

(* ---------------- C12 ---------------- *)
Lemma entries_listed : forall t, reachable t ->
  NoDup (map (fun e => pkey W (fst e)) (entries (tx_trie t))) /\
  forall k, In k (map (fun e => pkey W (fst e)) (entries (tx_trie t))) <-> exists p, wf_prefix W p /\ pkey W p = k /\ snd (Get t (Some p)) = true.
Proof.
  intros t Ht. apply rwf in Ht. split.
  - pose proof (entries_sorted W _ _ Ht) as S. pose proof (entries_wf _ _ _ Ht) as F.
    clear -S F. induction S as [|x l S IH G]; cbn; [constructor|].
    inversion F as [|? ? [Fx _] Fl]; subst. constructor; auto.
    intros I. apply in_map_iff in I. destruct I as (y & E & I).
    rewrite Forall_forall in *. destruct (Fl _ I) as [Fy _]. apply (key_eq_iff W) in E; auto.
    specialize (G _ I). unfold elt, ekey in G. rewrite E in G. apply (blt_irrefl _ G).
  - intros k. rewrite in_map_iff. split.
    + intros (e & <- & I). exists (fst e). pose proof (ewf _ _ Ht I). split; auto. split; auto.
      rewrite (Get_fk W HW) by auto. change (key (fst e)) with (ekey W e). rewrite (In_fk W _ _ _ Ht I). destruct e; auto.
    + intros (p & Hp & <- & G). rewrite (Get_fk W HW) in G by auto.
      destruct (fk (key p) (tx_trie t)) as [e|] eqn:F; [|discriminate].
      apply (fk_In W) in F. destruct F as [I K]. exists e. split; auto. apply (key_eq_iff W); auto.
      eapply ewf; eauto.
Qed.
Lemma entries_count : forall t (L : list (N * N)), reachable t -> NoDup L ->
  (forall k, In k L <-> exists p, wf_prefix W p /\ pkey W p = k /\ snd (Get t (Some p)) = true) ->
  length L = length (entries (tx_trie t)).
Proof.
  intros t L Ht ND HL. destruct (entries_listed t Ht) as [ND' HL'].
  rewrite <- (map_length (fun e => pkey W (fst e))). apply Permutation_length.
  apply NoDup_Permutation; auto. intros k. rewrite HL, HL'. reflexivity.
Qed.
Theorem C12_num_entries : forall t (L : list (N * N)), reachable t ->
  NoDup L ->
  (forall k, In k L <-> exists p, wf_prefix W p /\ pkey W p = k /\ snd (Get t (Some p)) = true) ->
  NumEntries t = N.of_nat (length L) mod 2 ^ 32 /\
  (N.of_nat (length L) < 2 ^ 32 -> NumEntries t = N.of_nat (length L)).
Proof.
  intros t L Ht ND HL. pose proof (entries_count t L Ht ND HL) as E. apply rwf in Ht.
  unfold NumEntries. rewrite (NumNodes_entries W _ _ Ht). unfold nlen. rewrite E. split; auto.
  intros H. apply N.mod_small. auto.
Qed.

(* ---------------- C13, C14, C15 ---------------- *)
Definition rep (e : event T) : report T :=
  match e with
  | ERemoved p d => RRemoved p (unbox d)
  | EAdded p d => RAdded p (unbox d)
  | EModified p _ d d' => RChanged p (unbox d) (unbox d')
  | ESame p _ d _ => RUnchanged p (unbox d)
  end.

Lemma fuel_ok (l r : trie T) : wf [] l -> wf [] r -> dm l r < N.of_nat (fuelW W).
Proof.
  intros Hl Hr. pose proof (dm_le W HW (fun _ _ => false) l r). unfold fuelW.
  assert (D : forall t : trie T, wf [] t -> depth t <= W + 1).
  { intros t Ht. destruct t as [|p d s h a l0 r0]; [cbn; lia|].
    pose proof (depth_bound W HW [] _ Ht) as B. unfold nlen in B; cbn [length] in B.
    assert (Node p d s h a l0 r0 <> Nil) by discriminate. specialize (B H0). lia. }
  pose proof (D _ Hl). pose proof (D _ Hr). lia.
Qed.

Definition fg (g : T -> T -> bool) (d d' : option T) : bool := g (unbox d) (unbox d').
Definition reports (g : T -> T -> bool) (l r : tableX T) : list (report T) :=
  map rep (devs W (fg g) (fuelW W) (tx_trie l) (tx_trie r)).

Lemma Diff_reports (l r : tableX T) (g : T -> T -> bool) (peq : trie T -> trie T -> bool) :
  inv W box l -> inv W box r -> decides l g ->
  (forall a b, peq a b = true -> a = b) ->
  forall (S : Type) changed left right unchanged (st : S),
  (unchanged = None -> forall v, g v v = true) ->
  tbl_Diff W zeroT peq l r changed left right unchanged st =
  Ok (until_false (notify changed left right unchanged) (reports g l r) st).
Proof.
  intros (Wl & Bl) (Wr & Br) Hd Hs S changed left right unchanged st Hn.
  unfold tbl_Diff, Diff.
  set (c1 := fun g : prefix -> T -> S -> S * bool => fun p d => g p (unbox d)).
  set (c2 := fun g : prefix -> T -> T -> S -> S * bool => fun p d d' => g p (unbox d) (unbox d')).
  replace {| Removed := _; Added := _; Modified := _; Same := _ |}
    with {| Removed := on1 (option_map c1 left); Added := on1 (option_map c1 right);
            Modified := on2 (option_map c2 changed); Same := on1 (option_map c1 unchanged) |}
    by (destruct left, right, changed, unchanged; reflexivity).
  rewrite (diff_run W (fg g) peq Hs (option_map c1 left) (option_map c1 right) (option_map c1 unchanged) (option_map c2 changed)).
  - rewrite run_until. unfold reports. rewrite until_map. f_equal. apply until_ext.
    intros [] s; destruct left, right, changed, unchanged; reflexivity.
  - destruct unchanged; [discriminate|]. intros _ d. unfold fg. auto.
  - intros e e' He He'. pose proof (boxed_entries _ _ _ Bl He) as [v Ev]. pose proof (boxed_entries _ _ _ Br He') as [v' Ev'].
    unfold fg. rewrite Ev, Ev', !Hbox. apply Hd.
  - apply fuel_ok; auto.
Qed.

Lemma devs_wf g (l r : tableX T) : wf [] (tx_trie l) -> wf [] (tx_trie r) ->
  Forall (fun e => wf_prefix W (eprefix e)) (devs W (fg g) (fuelW W) (tx_trie l) (tx_trie r)).
Proof.
  intros Wl Wr. apply Forall_forall. intros e He.
  pose proof (devs_sides W HW (fg g) (fuelW W) _ _ (fuel_ok _ _ Wl Wr)) as (S1 & S2).
  assert (X : In (eprefix e) (map fst (entries (tx_trie l))) \/ In (eprefix e) (map fst (entries (tx_trie r)))).
  { rewrite <- S1, <- S2. rewrite !in_map_iff. destruct e as [p d|p d|p p' d d'|p p' d d']; cbn.
    - left. exists (p, d). split; auto. apply in_flat_map. eexists. split; [exact He|]. cbn. auto.
    - right. exists (p, d). split; auto. apply in_flat_map. eexists. split; [exact He|]. cbn. auto.
    - left. exists (p, d). split; auto. apply in_flat_map. eexists. split; [exact He|]. cbn. auto.
    - left. exists (p, d). split; auto. apply in_flat_map. eexists. split; [exact He|]. cbn. auto. }
  destruct X as [X|X]; apply in_map_iff in X; destruct X as (y & <- & X).
  - apply (ewf _ _ Wl X).
  - apply (ewf _ _ Wr X).
Qed.
Lemma rep_prefix e : rprefix (rep e) = eprefix e.
Proof. destruct e; reflexivity. Qed.
Lemma reports_wf g (l r : tableX T) : wf [] (tx_trie l) -> wf [] (tx_trie r) ->
  Forall (fun x => wf_prefix W (rprefix x)) (reports g l r).
Proof.
  intros Wl Wr. unfold reports. apply Forall_map. eapply Forall_impl; [|apply devs_wf; auto].
  intros e. rewrite rep_prefix. auto.
Qed.

Lemma reports_at g (l r : tableX T) q : wf [] (tx_trie l) -> wf [] (tx_trie r) -> wf_prefix W q ->
  filter (fun x => eqk (pkey W (rprefix x)) (pkey W q)) (reports g l r) = wanted g (stored l q) (stored r q).
Proof.
  intros Wl Wr Hq. unfold reports. pose proof (devs_wf g _ _ Wl Wr) as WE.
  assert (EQ : filter (fun x => eqk (pkey W (rprefix x)) (pkey W q)) (map rep (devs W (fg g) (fuelW W) (tx_trie l) (tx_trie r)))
     = map rep (at_key W (key q) (devs W (fg g) (fuelW W) (tx_trie l) (tx_trie r)))).
  { unfold at_key. induction WE as [|e es He Hes IH]; cbn; auto. rewrite IH.
    rewrite rep_prefix.
    unfold evkey. destruct (keq (key (eprefix e)) (key q)) as [E|E].
    - apply (key_eq_iff W) in E; auto. rewrite (proj2 (eqk_spec _ _) E). reflexivity.
    - destruct (eqk (pkey W (eprefix e)) (pkey W q)) eqn:Q; auto.
      apply eqk_spec in Q. apply (key_eq_iff W) in Q; auto. congruence. }
  rewrite EQ, (devs_char W HW (fg g) _ [] [] _ _ Wl Wr (fuel_ok _ _ Wl Wr)).
  rewrite !stored_fk by auto.
  destruct (fk (key q) (tx_trie l)) as [[p d]|], (fk (key q) (tx_trie r)) as [[p' d']|]; cbn; auto.
  unfold fg. destruct (g (unbox d) (unbox d')); auto.
Qed.

(* There is one list of reports, containing for every prefix exactly the report
   required by what the two tables store for it, such that Diff with any
   callbacks is the run of these callbacks over that list up to the first false. *)
Theorem C13_diff_exact : forall (l r : tableX T) (g : T -> T -> bool),
  reachable l -> reachable r -> decides l g ->
  exists R : list (report T),
    (forall q, wf_prefix W q ->
       filter (fun x => eqk (pkey W (rprefix x)) (pkey W q)) R = wanted g (stored l q) (stored r q)) /\
    Forall (fun x => wf_prefix W (rprefix x)) R /\
    forall (peq : trie T -> trie T -> bool), (forall a b, peq a b = true -> a = b) ->
    forall (S : Type) changed left right unchanged (st : S),
      (unchanged = None -> forall v, g v v = true) ->
      tbl_Diff W zeroT peq l r changed left right unchanged st =
      Ok (until_false (notify changed left right unchanged) R st).
Proof.
  intros l r g Hl Hr Hd. exists (reports g l r). pose proof (rwf _ Hl) as Wl. pose proof (rwf _ Hr) as Wr. split; [|split].
  - intros q Hq. apply reports_at; auto.
  - apply reports_wf; auto.
  - intros. apply Diff_reports; auto using rinv.
Qed.

(* The list of reports of a Diff, recorded by callbacks that never stop. *)
Definition diff_log (peq : trie T -> trie T -> bool) (l r : tableX T) : res (list (report T)) :=
  '(log, _) <- tbl_Diff W zeroT peq l r
      (Some (fun p v v' s => (s ++ [RChanged p v v'], true)))
      (Some (fun p v s => (s ++ [RRemoved p v], true)))
      (Some (fun p v s => (s ++ [RAdded p v], true)))
      (Some (fun p v s => (s ++ [RUnchanged p v], true))) [] ;;
  Ok log.

Lemma until_log (R : list (report T)) : forall st,
  until_false (notify (Some (fun p v v' s => (s ++ [RChanged p v v'], true)))
      (Some (fun p v s => (s ++ [RRemoved p v], true)))
      (Some (fun p v s => (s ++ [RAdded p v], true)))
      (Some (fun p v s => (s ++ [RUnchanged p v], true)))) R st = (st ++ R, true).
Proof.
  induction R as [|x R IH]; intros st; cbn; [rewrite app_nil_r; auto|].
  destruct x; cbn; rewrite IH, <- app_assoc; reflexivity.
Qed.
Lemma diff_log_reports peq (l r : tableX T) g :
  (forall a b, peq a b = true -> a = b) -> inv W box l -> inv W box r -> decides l g ->
  diff_log peq l r = Ok (reports g l r).
Proof.
  intros Hs Hl Hr Hd. unfold diff_log. rewrite (Diff_reports l r g); auto; [|discriminate].
  rewrite until_log. reflexivity.
Qed.

Lemma SS_weaken {A} (R R' : A -> A -> Prop) (P : A -> Prop) l :
  Forall P l -> (forall x y, P x -> P y -> R x y -> R' x y) -> StronglySorted R l -> StronglySorted R' l.
Proof.
  intros HP H S. rewrite <- (map_id l). eapply (SS_map (fun x => x)); eauto.
Qed.
Lemma SS_map_inv {A B} (h : A -> B) (R : B -> B -> Prop) l :
  StronglySorted R (map h l) -> StronglySorted (fun x y => R (h x) (h y)) l.
Proof.
  induction l as [|x l IH]; cbn; [constructor|]. intros S. inversion S as [|? ? S' F]; subst.
  constructor; auto. rewrite Forall_forall in *. intros y Hy. apply F. apply in_map. auto.
Qed.

Lemma devs_keys2 g (l r : tableX T) e : wf [] (tx_trie l) -> wf [] (tx_trie r) ->
  In e (devs W (fg g) (fuelW W) (tx_trie l) (tx_trie r)) ->
  Forall (fun x => ekey W x = evkey W e) (left_of e ++ right_of e).
Proof.
  intros Wl Wr He.
  pose proof (devs_char W HW (fg g) _ [] [] _ _ Wl Wr (fuel_ok _ _ Wl Wr) (evkey W e)) as C.
  assert (I : In e (at_key W (evkey W e) (devs W (fg g) (fuelW W) (tx_trie l) (tx_trie r)))).
  { apply filter_In. split; auto. destruct (keq (evkey W e) (evkey W e)); auto. }
  rewrite C in I.
  destruct (fk (evkey W e) (tx_trie l)) as [[p d]|] eqn:F1; destruct (fk (evkey W e) (tx_trie r)) as [[p' d']|] eqn:F2;
    cbn in I.
  - apply (fk_In W) in F1. apply (fk_In W) in F2. 
    destruct (fg g d d'); destruct I as [<-|[]]; cbn; repeat constructor; tauto.
  - apply (fk_In W) in F1. destruct I as [<-|[]]; cbn; repeat constructor; tauto.
  - apply (fk_In W) in F2. destruct I as [<-|[]]; cbn; repeat constructor; tauto.
  - destruct I.
Qed.

(* Diff is not in lexicographic order in general (C14_refuted below); what holds: the
   reports about entries of either table are in order among themselves, and a
   prefix is always reported before every prefix it contains. *)
Theorem C14_diff_order_partial : forall (peq : trie T -> trie T -> bool) (l r : tableX T) (g : T -> T -> bool),
  (forall a b, peq a b = true -> a = b) -> reachable l -> reachable r -> decides l g ->
  exists R, diff_log peq l r = Ok R /\
    StronglySorted (fun x y => lex_lt W (rprefix x) (rprefix y)) (filter on_left R) /\
    StronglySorted (fun x y => lex_lt W (rprefix x) (rprefix y)) (filter on_right R) /\
    StronglySorted (fun x y => ~ covers W (rprefix y) (rprefix x)) R.
Proof.
  intros peq l r g Hs Hl Hr Hd. exists (reports g l r). split; [apply diff_log_reports; auto using rinv|].
  pose proof (rwf _ Hl) as Wl. pose proof (rwf _ Hr) as Wr.
  pose proof (reports_wf g _ _ Wl Wr) as RW. pose proof (devs_wf g _ _ Wl Wr) as DW.
  pose proof (devs_sides W HW (fg g) (fuelW W) _ _ (fuel_ok _ _ Wl Wr)) as (S1 & S2).
  pose proof (fun e => devs_keys2 g l r e Wl Wr) as K.
  assert (side : forall (sel : report T -> bool) (pr : event T -> list (prefix * option T)) (tr : trie T),
     wf [] tr -> (forall e, pr e = [] <-> sel (rep e) = false) ->
     (forall e, In e (devs W (fg g) (fuelW W) (tx_trie l) (tx_trie r)) -> pr e = [] \/ exists x, pr e = [x] /\ ekey W x = evkey W e) ->
     flat_map pr (devs W (fg g) (fuelW W) (tx_trie l) (tx_trie r)) = entries tr ->
     StronglySorted (fun x y => lex_lt W (rprefix x) (rprefix y)) (filter sel (reports g l r))).
  { intros sel pr tr Wt Hsel Hpr Hflat.
    assert (M : map (fun x => key (rprefix x)) (filter sel (reports g l r)) = map (ekey W) (entries tr)).
    { rewrite <- Hflat. unfold reports. clear -Hsel Hpr.
      induction (devs W (fg g) (fuelW W) (tx_trie l) (tx_trie r)) as [|e es IH]; cbn; auto.
      rewrite map_app, <- IH by (intros; apply Hpr; right; auto).
      destruct (Hpr e (or_introl eq_refl)) as [E|(x & E & Kx)].
      - rewrite E. apply Hsel in E. rewrite E. reflexivity.
      - assert (sel (rep e) = true) by (destruct (sel (rep e)) eqn:Q; auto; apply Hsel in Q; rewrite Q in E; discriminate).
        rewrite H, E. cbn. rewrite rep_prefix, Kx. reflexivity. }
    assert (SK : StronglySorted blt (map (ekey W) (entries tr))).
    { eapply (SS_map (ekey W) (@elt W T) blt (fun _ => True)); [apply Forall_forall; auto|auto|apply (entries_sorted W []); auto]. }
    rewrite <- M in SK. apply SS_map_inv in SK.
    eapply (SS_weaken _ _ (fun x => wf_prefix W (rprefix x))); [| |exact SK].
    - apply Forall_forall. intros x Hx. apply filter_In in Hx. rewrite Forall_forall in RW. apply RW. tauto.
    - cbn. intros x y Hx Hy B. apply blt_lex; auto. }
  split; [|split].
  - apply (side on_left (@left_of T) (tx_trie l)); auto.
    + intros []; cbn; split; congruence.
    + intros e He. specialize (K _ He). apply Forall_app in K. destruct K as [K _].
      destruct e; cbn in *; auto; right; eexists; (split; [reflexivity|]); inversion K; auto.
  - apply (side on_right (@right_of T) (tx_trie r)); auto.
    + intros []; cbn; split; congruence.
    + intros e He. specialize (K _ He). apply Forall_app in K. destruct K as [_ K].
      destruct e; cbn in *; auto; right; eexists; (split; [reflexivity|]); inversion K; auto.
  - unfold reports. eapply (SS_map rep (later W) _ (fun e => wf_prefix W (eprefix e))); [exact DW| |].
    + intros x y Hx Hy L C. rewrite !rep_prefix in C. apply L. apply covers_pre in C; auto.
    + eapply (devs_later W HW); eauto using fuel_ok.
Qed.

(* Skipping by pointer never changes a Diff: whichever sound pointer comparison
   is in force, the outcome is the same - in particular that of an
   implementation which never skips. *)
Theorem C15_skip_unobservable : forall (peq : trie T -> trie T -> bool) (l r : tableX T) (g : T -> T -> bool),
  (forall a b, peq a b = true -> a = b) -> reachable l -> reachable r -> decides l g ->
  (forall v, g v v = true) ->
  forall (S : Type) changed left right unchanged (st : S),
    tbl_Diff W zeroT peq l r changed left right unchanged st =
    tbl_Diff W zeroT (fun _ _ => false) l r changed left right unchanged st.
Proof.
  intros peq l r g Hs Hl Hr Hd Hg S changed left right unchanged st.
  rewrite !(Diff_reports l r g); auto using rinv. discriminate.
Qed.

(* ---------------- C35 ---------------- *)
(* The integrity check holds in every table a program can obtain. *)
Theorem C35_tables_valid : forall t, reachable t -> isValid (tx_trie t) = true.
Proof. intros t Ht. apply rwf in Ht. unfold isValid. eapply (wf_isValid W HW []); eauto. lia. Qed.

(* No call on such a table panics, provided the comparator does not panic on two values. *)
Theorem C35_no_panic : forall t g o, reachable t -> decides t g -> wf_prefix W (op_prefix o) ->
  exists t' x, exec W zeroT box (Some t) o = Ok (Some t', x).
Proof.
  intros t g o Ht Hd Ho. apply rinv in Ht.
  set (m := fun k : N * N => match find (fun e => eqk (pkey W (fst e)) k) (entries (tx_trie t)) with
                     | Some e => Some (ub e) | None => None end : option (prefix * T)).
  assert (R : Rel W box m t).
  { split; auto. intros p Hp. unfold m. destruct Ht as (Hw & Hb).
    assert (E : find (fun e => eqk (pkey W (fst e)) (pkey W p)) (entries (tx_trie t)) = fk (key p) (tx_trie t)).
    { unfold WF.fk. apply entries_wf in Hw. clear -Hw Hp. induction Hw as [|e es [He _] Hes IH]; cbn; auto.
      rewrite IH. unfold ekey. destruct (keq (key (fst e)) (key p)) as [E|E].
      - apply (key_eq_iff W) in E; auto. rewrite (proj2 (eqk_spec _ _) E). reflexivity.
      - destruct (eqk (pkey W (fst e)) (pkey W p)) eqn:Q; auto.
        apply eqk_spec in Q. apply (key_eq_iff W) in Q; auto. congruence. }
    rewrite E. destruct (fk (key p) (tx_trie t)) as [[q d]|] eqn:F; cbn; auto.
    apply (fk_In W) in F. destruct F as [I _]. pose proof (boxed_entries _ _ _ Hb I) as B. cbn in B.
    rewrite (box_unbox zeroT box Hbox) by auto. auto. }
  destruct (exec_step W HW zeroT box Hbox m t o g R Hd Ho) as (t' & x & E & _). eauto.
Qed.
End Props.
