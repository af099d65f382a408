(* DiffProof.v - Diff and Walk as runs over an event list; proofs. *)
From Verif Require Export TrieOps.
From Coq Require Import Arith Sorted ZifyBool ZifyNat ZifyN.

(* What a Diff reports about one prefix. *)
Inductive event (T : Type) :=
| ERemoved (p : prefix) (d : option T)
| EAdded (p : prefix) (d : option T)
| EModified (p : prefix) (p' : prefix) (d d' : option T)
| ESame (p : prefix) (p' : prefix) (d d' : option T).
Arguments ERemoved {T}. Arguments EAdded {T}. Arguments EModified {T}. Arguments ESame {T}.

(* call f on the elements of a list, in order, until the first false *)
Fixpoint run_list {A S} (f : A -> S -> S * bool) (l : list A) (st : S) : S * bool :=
  match l with
  | [] => (st, true)
  | x :: l' => let (st', go) := f x st in if go then run_list f l' st' else (st', false)
  end.

Section Diff.
Variable W : N.
Context {T : Type}.
Notation key := (key W).
Notation wf := (wf W).
Notation fk := (fk W).
Implicit Types t l r : trie T.
Variable f : option T -> option T -> bool.

Definition eprefix (e : event T) : prefix :=
  match e with ERemoved p _ => p | EAdded p _ => p | EModified p _ _ _ => p | ESame p _ _ _ => p end.
Definition evkey e := key (eprefix e).

(* the events of one pair of nodes with equal keys / one node *)
Definition ev_rem t : list (event T) :=
  match t with Node p d _ _ true _ _ => [ERemoved p d] | _ => [] end.
Definition ev_add t : list (event T) :=
  match t with Node p d _ _ true _ _ => [EAdded p d] | _ => [] end.
Definition ev_same l r : list (event T) :=
  match l, r with
  | Node p d _ _ a _ _, Node p' d' _ _ a' _ _ =>
    if a && a' then (if f d d' then [ESame p p' d d'] else [EModified p p' d d'])
    else ev_rem l ++ ev_add r
  | _, _ => []
  end.

Fixpoint devs (fuel : nat) (left right : trie T) : list (event T) :=
  match fuel with
  | O => []
  | S fuel' =>
    match left, right with
    | Nil, Nil => []
    | _, _ =>
      let '(result, child) :=
        match left, right with
        | Node pl _ _ _ _ _ _, Node pr _ _ _ _ _ _ =>
          let '(result, _, _, child) := compare W pl pr in (result, child)
        | Node _ _ _ _ _ _ _, Nil => (compareContains, false)
        | _, _ => (compareIsContained, false)
        end in
      (match result with
       | compareSame => ev_same left right
       | compareContains => ev_rem left
       | compareIsContained => ev_add right
       | compareDisjoint => []
       end) ++
      (let '(nl0, nl1, nr0, nr1) :=
          match result with
          | compareSame => (child0 left, child1 left, child0 right, child1 right)
          | compareIsContained =>
            (setl child left Nil, setr child left Nil, child0 right, child1 right)
          | compareContains =>
            (child0 left, child1 left, setl child right Nil, setr child right Nil)
          | compareDisjoint =>
            if child then (left, Nil, Nil, right) else (Nil, left, right, Nil)
          end in
        devs fuel' nl0 nr0 ++ devs fuel' nl1 nr1)
    end
  end.

(* how a handler set reacts to an event: nil callbacks are no-ops.  The
   callbacks of trieDiffHandler take nodes; here they are only given the
   Prefix and Data of the node. *)
Definition on_event {S} (removed added : option (prefix -> option T -> S -> S * bool))
           (modified : option (prefix -> option T -> option T -> S -> S * bool))
           (same : option (prefix -> option T -> S -> S * bool)) (e : event T) (st : S) : S * bool :=
  match e with
  | ERemoved p d => match removed with Some g => g p d st | None => (st, true) end
  | EAdded p d => match added with Some g => g p d st | None => (st, true) end
  | EModified p _ d d' => match modified with Some g => g p d d' st | None => (st, true) end
  | ESame p _ d _ => match same with Some g => g p d st | None => (st, true) end
  end.

Definition on1 {S} (g : option (prefix -> option T -> S -> S * bool)) : option (trie T -> S -> S * bool) :=
  option_map (fun g n => g (prefix_of n) (data_of n)) g.
Definition on2 {S} (g : option (prefix -> option T -> option T -> S -> S * bool))
  : option (trie T -> trie T -> S -> S * bool) :=
  option_map (fun g l r => g (prefix_of l) (data_of l) (data_of r)) g.

Lemma run_list_app {A S} (g : A -> S -> S * bool) xs ys st :
  run_list g (xs ++ ys) st =
  let (st', go) := run_list g xs st in if go then run_list g ys st' else (st', false).
Proof.
  revert st. induction xs as [|x xs IH]; intros st; simpl; [reflexivity|].
  destruct (g x st) as [st' [|]]; [apply IH|reflexivity].
Qed.

Lemma run_list_noop {A S} (g : A -> S -> S * bool) xs st :
  (forall x, In x xs -> forall st, g x st = (st, true)) -> run_list g xs st = (st, true).
Proof.
  revert st. induction xs as [|x xs IH]; intros st H; simpl; [reflexivity|].
  rewrite H by (left; reflexivity). apply IH. intros y Hy. apply H. right. exact Hy.
Qed.

(* fuel *)
Definition dm l r : N :=
  depth l + depth r + match l, r with Node _ _ _ _ _ _ _, Node _ _ _ _ _ _ _ => 1 | _, _ => 0 end.

Lemma depth_child0 t : depth (child0 t) < depth t + match t with Nil => 1 | _ => 0 end.
Proof. destruct t; cbn [child0 depth]; lia. Qed.
Lemma depth_child1 t : depth (child1 t) < depth t + match t with Nil => 1 | _ => 0 end.
Proof. destruct t; cbn [child1 depth]; lia. Qed.

Variable peq : trie T -> trie T -> bool.
Hypothesis peq_sound : forall a b, peq a b = true -> a = b.

(* a diff of a trie with itself reports only unchanged entries *)
Lemma devs_refl fuel t : (forall d, f d d = true) ->
  Forall (fun e => match e with ESame _ _ _ _ => True | _ => False end) (devs fuel t t).
Proof.
  intros Hf. revert t. induction fuel as [|fuel IH]; intros t; simpl; [constructor|].
  destruct t as [|p d s h a l r]; [constructor|].
  assert (exists m, compare W p p = (compareSame, false, m, false)) as [m ->].
  { unfold compare, contains. rewrite N.ltb_irrefl, !N.eqb_refl. simpl. eauto. }
  simpl. apply Forall_app. split; [|apply Forall_app; split; apply IH].
  rewrite Hf. destruct a; simpl; repeat constructor.
Qed.

Section Handlers.
Context {S : Type}.
Variables (removed added same : option (prefix -> option T -> S -> S * bool)).
Variable modified : option (prefix -> option T -> option T -> S -> S * bool).
Variable eq : comparator T.
Let H : diffHandler S := {| Removed := on1 removed; Added := on1 added; Modified := on2 modified; Same := on1 same |}.
Let react := on_event removed added modified same.

Definition okpair l r : Prop :=
  forall e e', In e (entries l) -> In e' (entries r) -> eq (snd e) (snd e') = Ok (f (snd e) (snd e')).

Lemma okpair_sub l r l' r' : okpair l r ->
  incl (entries l') (entries l) -> incl (entries r') (entries r) -> okpair l' r'.
Proof. intros A B C e e' He He'. apply A; auto. Qed.

Lemma incl_child0 t : incl (entries (child0 t)) (entries t).
Proof. destruct t; intros x; simpl; [auto|]. intros Hx. apply in_or_app. right. apply in_or_app. auto. Qed.
Lemma incl_child1 t : incl (entries (child1 t)) (entries t).
Proof. destruct t; intros x; simpl; [auto|]. intros Hx. apply in_or_app. right. apply in_or_app. auto. Qed.
Lemma incl_setl c t : incl (entries (setl c t Nil)) (entries t).
Proof. destruct c; intros x; simpl; [contradiction|auto]. Qed.
Lemma incl_setr c t : incl (entries (setr c t Nil)) (entries t).
Proof. destruct c; intros x; simpl; [auto|contradiction]. Qed.
Lemma incl_nil t : incl (entries (@Nil T)) (entries t).
Proof. intros x []. Qed.

Hypothesis skip_ok : same = None -> forall d, f d d = true.

Lemma head_rem t st : iRemoved (wrap H eq) t st = Ok (run_list react (ev_rem t) st).
Proof.
  destruct t as [|p d s h a l r]; [reflexivity|]. cbn. destruct a; [|reflexivity].
  cbn. unfold react, on_event. destruct removed as [g|]; cbn; [|reflexivity].
  destruct (g p d st) as [st' [|]]; reflexivity.
Qed.
Lemma head_add t st : iAdded (wrap H eq) t st = Ok (run_list react (ev_add t) st).
Proof.
  destruct t as [|p d s h a l r]; [reflexivity|]. cbn. destruct a; [|reflexivity].
  cbn. unfold react, on_event. destruct added as [g|]; cbn; [|reflexivity].
  destruct (g p d st) as [st' [|]]; reflexivity.
Qed.
Lemma head_same p d s h a l r p' d' s' h' a' l' r' st :
  okpair (Node p d s h a l r) (Node p' d' s' h' a' l' r') ->
  iModified (wrap H eq) (Node p d s h a l r) (Node p' d' s' h' a' l' r') st
  = Ok (run_list react (ev_same (Node p d s h a l r) (Node p' d' s' h' a' l' r')) st).
Proof.
  intros OK. cbn. destruct a, a'; cbn.
  - specialize (OK (p, d) (p', d') (or_introl eq_refl) (or_introl eq_refl)). cbn in OK. rewrite OK. cbn.
    unfold react, on_event. destruct (f d d'); cbn.
    + destruct same as [g|]; cbn; [|reflexivity]. destruct (g p d st) as [st' [|]]; reflexivity.
    + destruct modified as [g|]; cbn; [|reflexivity]. destruct (g p d d' st) as [st' [|]]; reflexivity.
  - unfold react, on_event. destruct removed as [g|]; cbn; [|reflexivity].
    destruct (g p d st) as [st' [|]]; reflexivity.
  - unfold react, on_event. destruct added as [g|]; cbn; [|reflexivity].
    destruct (g p' d' st) as [st' [|]]; reflexivity.
  - reflexivity.
Qed.

Lemma diff_run : forall (fuel : nat) l r st, okpair l r -> dm l r < N.of_nat fuel ->
  diff W peq fuel l r (wrap H eq) st = Ok (run_list react (devs fuel l r) st).
Proof.
  induction fuel as [|fuel IH]; intros l r st OK Hm; [lia|].
  cbn [diff]. destruct (peq l r && iSameNil (wrap H eq)) eqn:Ep.
  { apply andb_prop in Ep. destruct Ep as [Ep En]. apply peq_sound in Ep. subst r.
    assert (same = None) as Es by (destruct same; [discriminate|reflexivity]).
    f_equal. symmetry. apply run_list_noop. intros e He st'.
    pose proof (devs_refl (Datatypes.S fuel) l (skip_ok Es)) as F. rewrite Forall_forall in F.
    specialize (F _ He). destruct e; try contradiction. unfold react, on_event. rewrite Es. reflexivity. }
  assert (forall nl0 nl1 nr0 nr1 hd st,
     incl (entries nl0) (entries l) -> incl (entries nl1) (entries l) ->
     incl (entries nr0) (entries r) -> incl (entries nr1) (entries r) ->
     dm nl0 nr0 < N.of_nat fuel -> dm nl1 nr1 < N.of_nat fuel ->
     ('(st1, go) <- Ok (run_list react hd st) ;;
      if negb go then Ok (st1, false)
      else '(st2, go2) <- diff W peq fuel nl0 nr0 (wrap H eq) st1 ;;
           if negb go2 then Ok (st2, false)
           else '(st3, go3) <- diff W peq fuel nl1 nr1 (wrap H eq) st2 ;;
                if negb go3 then Ok (st3, false) else Ok (st3, true))
     = Ok (run_list react (hd ++ (devs fuel nl0 nr0 ++ devs fuel nl1 nr1)) st)) as K.
  { intros nl0 nl1 nr0 nr1 hd st0 I1 I2 I3 I4 M1 M2.
    rewrite !run_list_app. cbn [bind]. destruct (run_list react hd st0) as [st1 [|]]; cbn [negb]; [|reflexivity].
    rewrite IH by (try assumption; eapply okpair_sub; eassumption). cbn [bind].
    rewrite run_list_app.
    destruct (run_list react (devs fuel nl0 nr0) st1) as [st2 [|]]; cbn [negb]; [|reflexivity].
    rewrite IH by (try assumption; eapply okpair_sub; eassumption). cbn [bind].
    destruct (run_list react (devs fuel nl1 nr1) st2) as [st3 [|]]; reflexivity. }
  destruct l as [|pl dl sl hl al ll lr]; destruct r as [|pr dr sr hr ar rl rr].
  - reflexivity.
  - rewrite head_add. cbn [devs]. apply K; auto using incl_child0, incl_child1, incl_setl, incl_setr;
      unfold dm in *; cbn [setl setr child0 child1 depth] in *; destruct rl, rr; lia.
  - rewrite head_rem. cbn [devs]. apply K; auto using incl_child0, incl_child1, incl_setl, incl_setr;
      unfold dm in *; cbn [setl setr child0 child1 depth] in *; destruct ll, lr; lia.
  - cbn [devs]. destruct (compare W pl pr) as [[[result rev] common] child].
    destruct result.
    + rewrite (head_same _ _ _ _ _ _ _ _ _ _ _ _ _ _ _ OK). apply K;
        auto using incl_child0, incl_child1, incl_setl, incl_setr;
        unfold dm in *; cbn [setl setr child0 child1 depth] in *; [destruct ll, rl|destruct lr, rr]; lia.
    + rewrite head_rem. apply K; auto using incl_child0, incl_child1, incl_setl, incl_setr;
        unfold dm in *; cbn [child0 child1 depth] in *; destruct child; cbn [setl setr depth]; destruct ll, lr; lia.
    + rewrite head_add. apply K; auto using incl_child0, incl_child1, incl_setl, incl_setr;
        unfold dm in *; cbn [child0 child1 depth] in *; destruct child; cbn [setl setr depth]; destruct rl, rr; lia.
    + change (Ok (st, true)) with (Ok (run_list react [] st)).
      destruct child; apply K; auto using incl_nil, incl_refl; unfold dm in *; cbn [depth] in *; lia.
Qed.
End Handlers.
End Diff.
