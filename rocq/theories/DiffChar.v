(* DiffChar.v - which events a Diff produces, and in which order; proofs. *)
From Verif Require Export DiffProof.
From Coq Require Import Arith Sorted ZifyBool ZifyNat ZifyN.

Section DiffChar.
Variable W : N.
Hypothesis HW : 0 < W /\ W < 2 ^ 15.
Context {T : Type}.
Notation key := (key W).
Notation wf := (wf W).
Notation fk := (fk W).
Implicit Types t l r : trie T.
Variable f : option T -> option T -> bool.
Notation devs := (devs W f).
Notation evkey := (evkey W).

(* what must be reported for one key, given its entry on either side *)
Definition expected (x y : option (prefix * option T)) : list (event T) :=
  match x, y with
  | None, None => []
  | Some (p, d), None => [ERemoved p d]
  | None, Some (p, d) => [EAdded p d]
  | Some (p, d), Some (p', d') => if f d d' then [ESame p p' d d'] else [EModified p p' d d']
  end.

Definition at_key (k : list bool) (evs : list (event T)) : list (event T) :=
  filter (fun e => if keq (evkey e) k then true else false) evs.

Lemma at_key_app k xs ys : at_key k (xs ++ ys) = at_key k xs ++ at_key k ys.
Proof. unfold at_key. apply filter_app. Qed.

Lemma pos3 p k : k = key p \/ (exists c x, k = key p ++ c :: x) \/ ~ pre (key p) k.
Proof.
  destruct (pre_dec (key p) k) as [[u ->]|H]; [|auto].
  destruct u as [|c x]; [left; apply app_nil_r|right; left; eauto].
Qed.

Lemma fk_kids_here k0 p d s h a l r : wf k0 (Node p d s h a l r) ->
  fk (key p) l = None /\ fk (key p) r = None.
Proof.
  intros (_ & _ & _ & _ & _ & Hl & Hr).
  split; [apply (fk_out W _ l _ Hl)|apply (fk_out W _ r _ Hr)]; apply pre_snoc_not.
Qed.
Lemma fk_kids_below k0 p d s h a l r c x : wf k0 (Node p d s h a l r) ->
  fk (key p ++ c :: x) (kid (negb c) l r) = None.
Proof.
  intros Hw. apply (fk_out W _ _ _ (wf_kid W _ _ _ _ _ _ _ _ (negb c) Hw)). apply pre_nsnoc.
Qed.
Lemma fk_kids_out k0 p d s h a l r k : wf k0 (Node p d s h a l r) -> ~ pre (key p) k ->
  fk k l = None /\ fk k r = None.
Proof.
  intros (_ & _ & _ & _ & _ & Hl & Hr) Hn.
  split; [apply (fk_out W _ l _ Hl)|apply (fk_out W _ r _ Hr)]; intros H; apply Hn; eapply pre_app; exact H.
Qed.

Lemma at_key_one k e : at_key k [e] = if keq (evkey e) k then [e] else [].
Proof. unfold at_key. simpl. destruct (keq (evkey e) k); reflexivity. Qed.

Lemma at_rem k p d s h a l r :
  at_key k (ev_rem (Node p d s h a l r)) = if keq (key p) k then expected (if a then Some (p, d) else None) None else [].
Proof.
  destruct a; cbn [ev_rem]; [rewrite at_key_one; reflexivity|]. destruct (keq (key p) k); reflexivity.
Qed.
Lemma at_add k p d s h a l r :
  at_key k (ev_add (Node p d s h a l r)) = if keq (key p) k then expected None (if a then Some (p, d) else None) else [].
Proof.
  destruct a; cbn [ev_add]; [rewrite at_key_one; reflexivity|]. destruct (keq (key p) k); reflexivity.
Qed.

Lemma expected_l x y : x = None \/ y = None -> expected x None ++ expected None y = expected x y.
Proof. intros [E|E]; rewrite E; destruct x as [[? ?]|], y as [[? ?]|]; reflexivity. Qed.
Lemma expected_r x y : x = None \/ y = None -> expected None y ++ expected x None = expected x y.
Proof. intros [E|E]; rewrite E; destruct x as [[? ?]|], y as [[? ?]|]; reflexivity. Qed.

(* a node against nothing *)
Lemma devs_left_step fuel p d s h a l r :
  devs (S fuel) (Node p d s h a l r) Nil = ev_rem (Node p d s h a l r) ++ devs fuel l Nil ++ devs fuel r Nil.
Proof. reflexivity. Qed.
Lemma devs_right_step fuel p d s h a l r :
  devs (S fuel) Nil (Node p d s h a l r) = ev_add (Node p d s h a l r) ++ devs fuel Nil l ++ devs fuel Nil r.
Proof. reflexivity. Qed.

Lemma dm_le l r : dm l r <= depth l + depth r + 1.
Proof. unfold dm. destruct l, r; lia. Qed.
Lemma dm_nodes p d s h a l r p' d' s' h' a' l' r' :
  dm (Node p d s h a l r) (Node p' d' s' h' a' l' r') =
  (1 + N.max (depth l) (depth r)) + (1 + N.max (depth l') (depth r')) + 1.
Proof. reflexivity. Qed.
Lemma depth_setl c (t : trie T) : depth (setl c t Nil) <= depth t.
Proof. destruct c; cbn [setl depth]; lia. Qed.
Lemma depth_setr c (t : trie T) : depth (setr c t Nil) <= depth t.
Proof. destruct c; cbn [setr depth]; lia. Qed.

Lemma devs_char : forall fuel kl kr l r, wf kl l -> wf kr r -> dm l r < N.of_nat fuel ->
  forall k, at_key k (devs fuel l r) = expected (fk k l) (fk k r).
Proof.
  induction fuel as [|fuel IH]; intros kl kr l r Hl Hr Hm k; [lia|].
  destruct l as [|pl dl sl hl al ll lr]; destruct r as [|pr dr sr hr ar rl rr].
  - reflexivity.
  - pose proof Hr as (Hrp & _ & _ & _ & _ & Hrl & Hrr).
    rewrite devs_right_step, !at_key_app, at_add.
    rewrite (IH [] _ Nil rl I Hrl) by (unfold dm in *; cbn [depth] in *; lia).
    rewrite (IH [] _ Nil rr I Hrr) by (unfold dm in *; cbn [depth] in *; lia).
    rewrite !fk_nil.
    destruct (pos3 pr k) as [->|[(c & x & ->)|Hn]].
    + rewrite fk_here by assumption. destruct (fk_kids_here _ _ _ _ _ _ _ _ Hr) as [-> ->].
      destruct (keq (key pr) (key pr)); [|congruence]. destruct ar; reflexivity.
    + rewrite fk_below by assumption. pose proof (fk_kids_below _ _ _ _ _ _ _ _ c x Hr) as F.
      destruct (keq (key pr) _) as [E|_].
      { exfalso. rewrite <- (app_nil_r (key pr)) in E at 1. apply app_inv_head in E. discriminate. }
      destruct c; simpl in F |- *; rewrite F; [reflexivity|apply app_nil_r].
    + rewrite fk_notpre by assumption. destruct (fk_kids_out _ _ _ _ _ _ _ _ _ Hr Hn) as [-> ->].
      destruct (keq (key pr) k) as [<-|_]; [exfalso; apply Hn, pre_refl|reflexivity].
  - pose proof Hl as (Hlp & _ & _ & _ & _ & Hll & Hlr).
    rewrite devs_left_step, !at_key_app, at_rem.
    rewrite (IH _ [] ll Nil Hll I) by (unfold dm in *; cbn [depth] in *; destruct ll; lia).
    rewrite (IH _ [] lr Nil Hlr I) by (unfold dm in *; cbn [depth] in *; destruct lr; lia).
    rewrite !fk_nil.
    destruct (pos3 pl k) as [->|[(c & x & ->)|Hn]].
    + rewrite fk_here by assumption. destruct (fk_kids_here _ _ _ _ _ _ _ _ Hl) as [-> ->].
      destruct (keq (key pl) (key pl)); [|congruence]. destruct al; reflexivity.
    + rewrite fk_below by assumption. pose proof (fk_kids_below _ _ _ _ _ _ _ _ c x Hl) as F.
      destruct (keq (key pl) _) as [E|_].
      { exfalso. rewrite <- (app_nil_r (key pl)) in E at 1. apply app_inv_head in E. discriminate. }
      destruct c; simpl in F |- *; rewrite F; [reflexivity|apply app_nil_r].
    + rewrite fk_notpre by assumption. destruct (fk_kids_out _ _ _ _ _ _ _ _ _ Hl Hn) as [-> ->].
      destruct (keq (key pl) k) as [<-|_]; [exfalso; apply Hn, pre_refl|reflexivity].
  - pose proof Hl as (Hlp & Hlk & _ & _ & _ & Hll & Hlr).
    pose proof Hr as (Hrp & Hrk & _ & _ & _ & Hrl & Hrr).
    cbn [DiffProof.devs].
    pose proof (compare_spec W HW pl pr Hlp Hrp) as C.
    remember (compare W pl pr) as cr eqn:Ecr. destruct C as [E|c x E|c x E|q c x y rev E1 E2 Erev].
    + (* same *)
      cbn [child0 child1]. rewrite !at_key_app.
      rewrite (IH _ _ ll rl Hll Hrl) by (unfold dm in *; cbn [depth] in *; destruct ll, rl; lia).
      rewrite (IH _ _ lr rr Hlr Hrr) by (unfold dm in *; cbn [depth] in *; destruct lr, rr; lia).
      assert (at_key k (ev_same f (Node pl dl sl hl al ll lr) (Node pr dr sr hr ar rl rr))
        = if keq (key pl) k then expected (if al then Some (pl, dl) else None) (if ar then Some (pr, dr) else None)
          else []) as ->.
      { cbn [ev_same]. destruct al, ar; cbn [andb].
        - destruct (f dl dr) eqn:Ef; rewrite at_key_one; cbn [expected]; rewrite Ef;
            unfold DiffProof.evkey; cbn [eprefix]; destruct (keq (key pl) k); reflexivity.
        - cbn [ev_rem ev_add]. rewrite app_nil_r, at_key_one. reflexivity.
        - cbn [ev_rem ev_add]. rewrite app_nil_l, at_key_one. unfold DiffProof.evkey; cbn [eprefix]. rewrite <- E. reflexivity.
        - cbn. destruct (keq (key pl) k); reflexivity. }
      destruct (pos3 pl k) as [->|[(c & x & ->)|Hn]].
      * destruct (fk_kids_here _ _ _ _ _ _ _ _ Hl) as [-> ->].
        rewrite fk_here by assumption. rewrite E, fk_here by assumption.
        destruct (fk_kids_here _ _ _ _ _ _ _ _ Hr) as [-> ->].
        destruct (keq (key pr) (key pr)); [|congruence]. cbn [expected app]. apply app_nil_r.
      * destruct (keq (key pl) _) as [E'|_].
        { exfalso. rewrite <- (app_nil_r (key pl)) in E' at 1. apply app_inv_head in E'. discriminate. }
        pose proof (fk_kids_below _ _ _ _ _ _ _ _ c x Hl) as F.
        pose proof (fk_kids_below _ _ _ _ _ _ _ _ c x Hr) as F'.
        rewrite <- E in F'. rewrite fk_below by assumption. rewrite E, fk_below by assumption. rewrite <- E.
        destruct c; simpl in F, F' |- *; rewrite F, F'; [reflexivity|apply app_nil_r].
      * destruct (keq (key pl) k) as [<-|_]; [exfalso; apply Hn, pre_refl|].
        destruct (fk_kids_out _ _ _ _ _ _ _ _ _ Hl Hn) as [-> ->].
        rewrite fk_notpre by assumption. rewrite E in Hn.
        destruct (fk_kids_out _ _ _ _ _ _ _ _ _ Hr Hn) as [-> ->].
        rewrite fk_notpre by assumption. reflexivity.
    + (* contains *)
      cbn [child0 child1]. set (R := Node pr dr sr hr ar rl rr) in *.
      assert (wf (key pl ++ [c]) R) as HR.
      { eapply wf_rebase; [exact Hr|rewrite E; apply pre_snoc_cons]. }
      rewrite !at_key_app, at_rem.
      rewrite (IH _ (key pl ++ [false]) ll (setl c R Nil) Hll);
        [|destruct c; [exact I|exact HR]|
         pose proof (dm_le ll (setl c R Nil)); pose proof (depth_setl c R); unfold R in *; rewrite dm_nodes in Hm; cbn [depth] in *; lia].
      rewrite (IH _ (key pl ++ [true]) lr (setr c R Nil) Hlr);
        [|destruct c; [exact HR|exact I]|
         pose proof (dm_le lr (setr c R Nil)); pose proof (depth_setr c R); unfold R in *; rewrite dm_nodes in Hm; cbn [depth] in *; lia].
      destruct (pos3 pl k) as [->|[(b & z & ->)|Hn]].
      * destruct (fk_kids_here _ _ _ _ _ _ _ _ Hl) as [-> ->]. rewrite fk_here by assumption.
        assert (fk (key pl) R = None) as F by (apply (fk_out W _ _ _ HR), pre_snoc_not).
        rewrite F. destruct (keq (key pl) (key pl)); [|congruence].
        destruct c; cbn [setl setr]; rewrite F, fk_nil; cbn [expected app]; apply app_nil_r.
      * destruct (keq (key pl) _) as [E'|_].
        { exfalso. rewrite <- (app_nil_r (key pl)) in E' at 1. apply app_inv_head in E'. discriminate. }
        pose proof (fk_kids_below _ _ _ _ _ _ _ _ b z Hl) as F. rewrite fk_below by assumption.
        assert (b <> c -> fk (key pl ++ b :: z) R = None) as FR.
        { intros Hbc. apply (fk_out W _ _ _ HR). intros H. apply Hbc.
          eapply pre_snoc_inj; [apply pre_snoc_cons|exact H]. }
        destruct b, c; simpl in F |- *; rewrite F, ?fk_nil, ?FR by discriminate; cbn [expected app];
          rewrite ?app_nil_r; reflexivity.
      * destruct (keq (key pl) k) as [<-|_]; [exfalso; apply Hn, pre_refl|].
        destruct (fk_kids_out _ _ _ _ _ _ _ _ _ Hl Hn) as [-> ->]. rewrite fk_notpre by assumption.
        assert (fk k R = None) as F.
        { apply (fk_out W _ _ _ HR). intros H. apply Hn. eapply pre_app. exact H. }
        destruct c; cbn [setl setr]; rewrite F, fk_nil; reflexivity.
    + (* is contained *)
      cbn [child0 child1]. set (L := Node pl dl sl hl al ll lr) in *.
      assert (wf (key pr ++ [c]) L) as HL.
      { eapply wf_rebase; [exact Hl|rewrite E; apply pre_snoc_cons]. }
      rewrite !at_key_app, at_add.
      rewrite (IH (key pr ++ [false]) (key pr ++ [false]) (setl c L Nil) rl); [|destruct c; [exact I|exact HL]|exact Hrl|
        
         pose proof (dm_le (setl c L Nil) rl); pose proof (depth_setl c L); unfold L in *; rewrite dm_nodes in Hm; cbn [depth] in *; lia].
      rewrite (IH (key pr ++ [true]) (key pr ++ [true]) (setr c L Nil) rr); [|destruct c; [exact HL|exact I]|exact Hrr|
        
         pose proof (dm_le (setr c L Nil) rr); pose proof (depth_setr c L); unfold L in *; rewrite dm_nodes in Hm; cbn [depth] in *; lia].
      destruct (pos3 pr k) as [->|[(b & z & ->)|Hn]].
      * destruct (fk_kids_here _ _ _ _ _ _ _ _ Hr) as [-> ->].
        assert (fk (key pr) L = None) as F by (apply (fk_out W _ _ _ HL), pre_snoc_not).
        rewrite F, fk_here by assumption. destruct (keq (key pr) (key pr)); [|congruence].
        destruct c; cbn [setl setr]; rewrite F, fk_nil; cbn [expected app]; apply app_nil_r.
      * destruct (keq (key pr) _) as [E'|_].
        { exfalso. rewrite <- (app_nil_r (key pr)) in E' at 1. apply app_inv_head in E'. discriminate. }
        pose proof (fk_kids_below _ _ _ _ _ _ _ _ b z Hr) as F.
        assert (fk (key pr ++ b :: z) (Node pr dr sr hr ar rl rr) = fk (key pr ++ b :: z) (kid b rl rr)) as -> by
          (apply fk_below; assumption).
        assert (b <> c -> fk (key pr ++ b :: z) L = None) as FL.
        { intros Hbc. apply (fk_out W _ _ _ HL). intros H. apply Hbc.
          eapply pre_snoc_inj; [apply pre_snoc_cons|exact H]. }
        destruct b, c; simpl in F |- *; rewrite F, ?fk_nil, ?FL by discriminate; cbn [expected app];
          rewrite ?app_nil_r; reflexivity.
      * destruct (keq (key pr) k) as [<-|_]; [exfalso; apply Hn, pre_refl|].
        destruct (fk_kids_out _ _ _ _ _ _ _ _ _ Hr Hn) as [-> ->].
        assert (fk k (Node pr dr sr hr ar rl rr) = None) as -> by (apply fk_notpre; assumption).
        assert (fk k L = None) as F.
        { apply (fk_out W _ _ _ HL). intros H. apply Hn. eapply pre_app. exact H. }
        destruct c; cbn [setl setr]; rewrite F, fk_nil; reflexivity.
    + (* disjoint *)
      set (L := Node pl dl sl hl al ll lr) in *. set (R := Node pr dr sr hr ar rl rr) in *.
      assert (fk k L = None \/ fk k R = None) as D.
      { destruct (pre_dec (key pl) k) as [P|P].
        - right. apply fk_notpre; try assumption. intros P'.
          assert (pre (q ++ [c]) k) as A1.
          { eapply pre_trans; [|exact P]. rewrite E1. apply pre_snoc_cons. }
          assert (pre (q ++ [negb c]) k) as A2.
          { eapply pre_trans; [|exact P']. rewrite E2. apply pre_snoc_cons. }
          pose proof (pre_snoc_inj _ _ _ _ A1 A2) as A. destruct c; discriminate.
        - left. apply fk_notpre; assumption. }
      assert (dm L Nil < N.of_nat fuel /\ dm (@Nil T) R < N.of_nat fuel) as [M1 M2].
      { unfold dm in *. subst L R. cbn [depth] in *. lia. }
      destruct (if rev then c else negb c); cbn [app]; rewrite at_key_app.
      * rewrite (IH kl [] L Nil Hl I M1), (IH [] kr Nil R I Hr M2), !fk_nil. apply expected_l. exact D.
      * rewrite (IH kl [] L Nil Hl I M1), (IH [] kr Nil R I Hr M2), !fk_nil. apply expected_r. exact D.
Qed.

Definition left_of (e : event T) : list (prefix * option T) :=
  match e with ERemoved p d => [(p, d)] | EAdded _ _ => [] | EModified p _ d _ => [(p, d)] | ESame p _ d _ => [(p, d)] end.
Definition right_of (e : event T) : list (prefix * option T) :=
  match e with ERemoved _ _ => [] | EAdded p d => [(p, d)] | EModified _ p' _ d' => [(p', d')] | ESame _ p' _ d' => [(p', d')] end.

Lemma entries_set c t : entries (setl c t Nil) ++ entries (setr c t Nil) = entries t.
Proof. destruct c; cbn [setl setr entries app]; [reflexivity|apply app_nil_r]. Qed.

(* each side of the event list is the entry list of that table, in order *)
Lemma devs_sides : forall fuel l r, dm l r < N.of_nat fuel ->
  flat_map left_of (devs fuel l r) = entries l /\ flat_map right_of (devs fuel l r) = entries r.
Proof.
  induction fuel as [|fuel IH]; intros l r Hm; [lia|].
  destruct l as [|pl dl sl hl al ll lr]; destruct r as [|pr dr sr hr ar rl rr].
  - split; reflexivity.
  - rewrite devs_right_step, !flat_map_app.
    destruct (IH Nil rl) as [-> ->]; [unfold dm in *; cbn [depth] in *; lia|].
    destruct (IH Nil rr) as [-> ->]; [unfold dm in *; cbn [depth] in *; lia|].
    destruct ar; split; reflexivity.
  - rewrite devs_left_step, !flat_map_app.
    destruct (IH ll Nil) as [-> ->]; [unfold dm in *; cbn [depth] in *; destruct ll; lia|].
    destruct (IH lr Nil) as [-> ->]; [unfold dm in *; cbn [depth] in *; destruct lr; lia|].
    destruct al; split; reflexivity.
  - cbn [DiffProof.devs]. destruct (compare W pl pr) as [[[result rev] common] child].
    rewrite dm_nodes in Hm.
    set (L := Node pl dl sl hl al ll lr) in *. set (R := Node pr dr sr hr ar rl rr) in *.
    assert (depth L = 1 + N.max (depth ll) (depth lr)) as DL by reflexivity.
    assert (depth R = 1 + N.max (depth rl) (depth rr)) as DR by reflexivity.
    destruct result; rewrite !flat_map_app.
    + subst L R. cbn [child0 child1].
      destruct (IH ll rl) as [-> ->]; [pose proof (dm_le ll rl); lia|].
      destruct (IH lr rr) as [-> ->]; [pose proof (dm_le lr rr); lia|].
      destruct al, ar; cbn [ev_same andb ev_rem ev_add]; try (destruct (f dl dr)); split; reflexivity.
    + destruct (IH ll (setl child R Nil)) as [E1 E2];
        [pose proof (dm_le ll (setl child R Nil)); pose proof (depth_setl child R); lia|].
      destruct (IH lr (setr child R Nil)) as [E3 E4];
        [pose proof (dm_le lr (setr child R Nil)); pose proof (depth_setr child R); lia|].
      change (child0 L) with ll. change (child1 L) with lr. rewrite ?flat_map_app, E1, E2, E3, E4, entries_set.
      subst L. destruct al; split; reflexivity.
    + destruct (IH (setl child L Nil) rl) as [E1 E2];
        [pose proof (dm_le (setl child L Nil) rl); pose proof (depth_setl child L); lia|].
      destruct (IH (setr child L Nil) rr) as [E3 E4];
        [pose proof (dm_le (setr child L Nil) rr); pose proof (depth_setr child L); lia|].
      change (child0 R) with rl. change (child1 R) with rr. rewrite ?flat_map_app, E1, E2, E3, E4, entries_set.
      subst R. destruct ar; split; reflexivity.
    + assert (dm L Nil < N.of_nat fuel /\ dm (@Nil T) R < N.of_nat fuel) as [M1 M2].
      { unfold dm. cbn [depth]. destruct L, R; lia. }
      destruct (IH _ _ M1) as [E1 E2]. destruct (IH _ _ M2) as [E3 E4].
      destruct child; cbn [app flat_map]; rewrite !flat_map_app, E1, E2, E3, E4; split;
        cbn [entries app]; rewrite ?app_nil_r; reflexivity.
Qed.

Lemma devs_nil_right : forall fuel t, depth t < N.of_nat fuel ->
  devs fuel Nil t = map (fun e => EAdded (fst e) (snd e)) (entries t).
Proof.
  induction fuel as [|fuel IH]; intros t Ht; [lia|].
  destruct t as [|p d s h a l r]; [reflexivity|]. cbn [depth] in Ht.
  rewrite devs_right_step, IH, IH by lia. cbn [entries]. rewrite !map_app. destruct a; reflexivity.
Qed.

(* an event's key is the key of an entry on one of the sides *)
Lemma devs_keys fuel kl kr l r e : wf kl l -> wf kr r -> dm l r < N.of_nat fuel ->
  In e (devs fuel l r) -> fk (evkey e) l <> None \/ fk (evkey e) r <> None.
Proof.
  intros Hl Hr Hm Hi. pose proof (devs_char fuel kl kr l r Hl Hr Hm (evkey e)) as C.
  assert (In e (at_key (evkey e) (devs fuel l r))) as Hin.
  { unfold at_key. apply filter_In. split; [exact Hi|]. destruct (keq (evkey e) (evkey e)); congruence. }
  rewrite C in Hin. destruct (fk (evkey e) l) as [[? ?]|]; [left; discriminate|].
  destruct (fk (evkey e) r) as [[? ?]|]; [right; discriminate|contradiction].
Qed.

Lemma devs_below fuel k kl kr l r : wf kl l -> wf kr r -> dm l r < N.of_nat fuel ->
  (l = Nil \/ wf k l) -> (r = Nil \/ wf k r) ->
  Forall (fun e => pre k (evkey e)) (devs fuel l r).
Proof.
  intros Hl Hr Hm Hkl Hkr. apply Forall_forall. intros e He.
  destruct (devs_keys _ _ _ _ _ _ Hl Hr Hm He) as [F|F].
  - destruct Hkl as [->|Hkl]; [exfalso; apply F; reflexivity|].
    destruct (pre_dec k (evkey e)) as [P|P]; [exact P|]. exfalso. apply F. apply (fk_out W _ _ _ Hkl P).
  - destruct Hkr as [->|Hkr]; [exfalso; apply F; reflexivity|].
    destruct (pre_dec k (evkey e)) as [P|P]; [exact P|]. exfalso. apply F. apply (fk_out W _ _ _ Hkr P).
Qed.

(* the key of a later event is never a prefix of the key of an earlier one *)
Definition later (e e' : event T) : Prop := ~ pre (evkey e') (evkey e).

Lemma later_fork p xs ys :
  Forall (fun e => pre (p ++ [false]) (evkey e)) xs -> Forall (fun e => pre (p ++ [true]) (evkey e)) ys ->
  forall x y, In x xs -> In y ys -> later x y /\ later y x.
Proof.
  intros Fx Fy x y Hx Hy. rewrite Forall_forall in Fx, Fy.
  pose proof (Fx _ Hx) as Px. pose proof (Fy _ Hy) as Py. split; intros P.
  - assert (pre (p ++ [true]) (evkey x)) as Q by (eapply pre_trans; eassumption).
    pose proof (pre_snoc_inj _ _ _ _ Px Q). discriminate.
  - assert (pre (p ++ [false]) (evkey y)) as Q by (eapply pre_trans; eassumption).
    pose proof (pre_snoc_inj _ _ _ _ Py Q). discriminate.
Qed.

Lemma sorted_head_branches k hd b0 b1 :
  (hd = [] \/ exists e, hd = [e] /\ evkey e = k) ->
  StronglySorted later b0 -> StronglySorted later b1 ->
  Forall (fun e => pre (k ++ [false]) (evkey e)) b0 -> Forall (fun e => pre (k ++ [true]) (evkey e)) b1 ->
  StronglySorted later (hd ++ b0 ++ b1).
Proof.
  intros Hh S0 S1 F0 F1. apply SSorted_app.
  - destruct Hh as [->|(e & -> & _)]; repeat constructor.
  - apply SSorted_app; try assumption. intros x y Hx Hy. apply (later_fork k b0 b1 F0 F1 x y Hx Hy).
  - intros x y Hx Hy P. destruct Hh as [->|(e & -> & Ek)]; [contradiction|].
    destruct Hx as [<-|[]]. rewrite Ek in P. apply in_app_or in Hy.
    rewrite Forall_forall in F0, F1.
    destruct Hy as [Hy|Hy]; [pose proof (F0 _ Hy) as Q|pose proof (F1 _ Hy) as Q];
      exact (pre_snoc_not k _ (pre_trans _ _ _ Q P)).
Qed.

Lemma devs_later : forall fuel kl kr l r, wf kl l -> wf kr r -> dm l r < N.of_nat fuel ->
  StronglySorted later (devs fuel l r).
Proof.
  induction fuel as [|fuel IH]; intros kl kr l r Hl Hr Hm; [lia|].
  destruct l as [|pl dl sl hl al ll lr]; destruct r as [|pr dr sr hr ar rl rr].
  - constructor.
  - pose proof Hr as (Hrp & _ & _ & _ & _ & Hrl & Hrr). rewrite devs_right_step.
    assert (dm Nil rl < N.of_nat fuel) as M1 by (unfold dm in *; cbn [depth] in *; lia).
    assert (dm Nil rr < N.of_nat fuel) as M2 by (unfold dm in *; cbn [depth] in *; lia).
    apply (sorted_head_branches (key pr)).
    + destruct ar; [right|left]; [eexists; split; reflexivity|reflexivity].
    + apply (IH [] _ Nil rl I Hrl M1).
    + apply (IH [] _ Nil rr I Hrr M2).
    + apply (devs_below fuel _ [] _ Nil rl I Hrl M1); auto.
    + apply (devs_below fuel _ [] _ Nil rr I Hrr M2); auto.
  - pose proof Hl as (Hlp & _ & _ & _ & _ & Hll & Hlr). rewrite devs_left_step.
    assert (dm ll Nil < N.of_nat fuel) as M1 by (unfold dm in *; cbn [depth] in *; destruct ll; lia).
    assert (dm lr Nil < N.of_nat fuel) as M2 by (unfold dm in *; cbn [depth] in *; destruct lr; lia).
    apply (sorted_head_branches (key pl)).
    + destruct al; [right|left]; [eexists; split; reflexivity|reflexivity].
    + apply (IH _ [] ll Nil Hll I M1).
    + apply (IH _ [] lr Nil Hlr I M2).
    + apply (devs_below fuel _ _ [] ll Nil Hll I M1); auto.
    + apply (devs_below fuel _ _ [] lr Nil Hlr I M2); auto.
  - pose proof Hl as (Hlp & Hlk & _ & _ & _ & Hll & Hlr).
    pose proof Hr as (Hrp & Hrk & _ & _ & _ & Hrl & Hrr).
    cbn [DiffProof.devs].
    pose proof (compare_spec W HW pl pr Hlp Hrp) as C.
    rewrite dm_nodes in Hm.
    remember (compare W pl pr) as cr eqn:Ecr. destruct C as [E|c x E|c x E|q c x y rev E1 E2 Erev].
    + cbn [child0 child1].
      assert (dm ll rl < N.of_nat fuel) as M1 by (pose proof (dm_le ll rl); lia).
      assert (dm lr rr < N.of_nat fuel) as M2 by (pose proof (dm_le lr rr); lia).
      apply (sorted_head_branches (key pl)).
      * cbn [ev_same]. destruct al, ar; cbn [andb ev_rem ev_add app]; [destruct (f dl dr)| | |];
          [right|right|right|right|left]; try reflexivity; eexists; (split; [reflexivity|]); try reflexivity.
        symmetry; exact E.
      * apply (IH _ _ ll rl Hll Hrl M1).
      * apply (IH _ _ lr rr Hlr Hrr M2).
      * apply (devs_below fuel _ _ _ ll rl Hll Hrl M1); [auto|right; rewrite E; exact Hrl].
      * apply (devs_below fuel _ _ _ lr rr Hlr Hrr M2); [auto|right; rewrite E; exact Hrr].
    + cbn [child0 child1]. set (R := Node pr dr sr hr ar rl rr) in *.
      assert (wf (key pl ++ [c]) R) as HR by (eapply wf_rebase; [exact Hr|rewrite E; apply pre_snoc_cons]).
      assert (depth R = 1 + N.max (depth rl) (depth rr)) as DR by reflexivity.
      assert (dm ll (setl c R Nil) < N.of_nat fuel) as M1
        by (pose proof (dm_le ll (setl c R Nil)); pose proof (depth_setl c R); lia).
      assert (dm lr (setr c R Nil) < N.of_nat fuel) as M2
        by (pose proof (dm_le lr (setr c R Nil)); pose proof (depth_setr c R); lia).
      assert (wf (key pl ++ [false]) (setl c R Nil)) as A0 by (destruct c; [exact I|exact HR]).
      assert (wf (key pl ++ [true]) (setr c R Nil)) as A1 by (destruct c; [exact HR|exact I]).
      apply (sorted_head_branches (key pl)).
      * destruct al; [right|left]; [eexists; split; reflexivity|reflexivity].
      * apply (IH _ _ _ _ Hll A0 M1).
      * apply (IH _ _ _ _ Hlr A1 M2).
      * apply (devs_below fuel _ _ _ _ _ Hll A0 M1); auto.
      * apply (devs_below fuel _ _ _ _ _ Hlr A1 M2); auto.
    + cbn [child0 child1]. set (L := Node pl dl sl hl al ll lr) in *.
      assert (wf (key pr ++ [c]) L) as HL by (eapply wf_rebase; [exact Hl|rewrite E; apply pre_snoc_cons]).
      assert (depth L = 1 + N.max (depth ll) (depth lr)) as DL by reflexivity.
      assert (dm (setl c L Nil) rl < N.of_nat fuel) as M1
        by (pose proof (dm_le (setl c L Nil) rl); pose proof (depth_setl c L); lia).
      assert (dm (setr c L Nil) rr < N.of_nat fuel) as M2
        by (pose proof (dm_le (setr c L Nil) rr); pose proof (depth_setr c L); lia).
      assert (wf (key pr ++ [false]) (setl c L Nil)) as A0 by (destruct c; [exact I|exact HL]).
      assert (wf (key pr ++ [true]) (setr c L Nil)) as A1 by (destruct c; [exact HL|exact I]).
      apply (sorted_head_branches (key pr)).
      * destruct ar; [right|left]; [eexists; split; reflexivity|reflexivity].
      * apply (IH _ _ _ _ A0 Hrl M1).
      * apply (IH _ _ _ _ A1 Hrr M2).
      * apply (devs_below fuel _ _ _ _ _ A0 Hrl M1); auto.
      * apply (devs_below fuel _ _ _ _ _ A1 Hrr M2); auto.
    + set (L := Node pl dl sl hl al ll lr) in *. set (R := Node pr dr sr hr ar rl rr) in *.
      assert (dm L Nil < N.of_nat fuel /\ dm (@Nil T) R < N.of_nat fuel) as [M1 M2].
      { unfold dm. subst L R. cbn [depth]. lia. }
      assert (wf (q ++ [c]) L) as HL by (eapply wf_rebase; [exact Hl|rewrite E1; apply pre_snoc_cons]).
      assert (wf (q ++ [negb c]) R) as HR by (eapply wf_rebase; [exact Hr|rewrite E2; apply pre_snoc_cons]).
      pose proof (devs_below fuel _ _ [] L Nil Hl I M1 (or_intror HL) (or_introl eq_refl)) as FL.
      pose proof (devs_below fuel _ [] _ Nil R I Hr M2 (or_introl eq_refl) (or_intror HR)) as FR.
      pose proof (IH _ [] L Nil Hl I M1) as SL. pose proof (IH [] _ Nil R I Hr M2) as SR.
      assert (forall x y, In x (devs fuel L Nil) -> In y (devs fuel Nil R) -> later x y /\ later y x) as LT.
      { intros a b Ha Hb. destruct c; cbn [negb] in *.
        - apply and_comm. eapply later_fork; eassumption.
        - eapply later_fork; eassumption. }
      destruct (if rev then c else negb c); cbn [app]; apply SSorted_app; try assumption; intros a b Ha Hb;
        first [apply (LT a b); assumption|apply (LT b a); assumption].
Qed.

(* Walk *)
Lemma Walk_run (peq : trie T -> trie T -> bool) k t {S} (cb : prefix -> option T -> S -> S * bool) st :
  (forall a b, peq a b = true -> a = b) -> wf k t ->
  Walk W peq t (Some cb) st = Ok (run_list (fun e => cb (fst e) (snd e)) (entries t) st).
Proof.
  intros Hpe Hw. unfold Walk, Diff.
  assert (depth t <= W + 1) as HD.
  { destruct t; [cbn [depth]; lia|]. pose proof (depth_bound W HW _ _ Hw ltac:(discriminate)). lia. }
  pose proof (diff_run W (fun _ _ => true) peq Hpe None (Some cb) None None
                (fun _ _ => Ok false) (fun _ _ => eq_refl) (fuelW W) Nil t st) as D.
  unfold on1, on2, option_map in D. rewrite D.
  - f_equal. clear D. assert (depth t < N.of_nat (fuelW W)) as HF by (unfold fuelW; lia).
    revert HF. generalize (fuelW W). intros fuel HF.
    assert (DiffProof.devs W (fun _ _ => true) fuel Nil t = map (fun e => EAdded (fst e) (snd e)) (entries t)) as ->.
    { clear -HF. revert t HF. induction fuel as [|fuel IH]; intros t Ht; [lia|].
      destruct t as [|p d s h a l r]; [reflexivity|]. cbn [depth] in Ht.
      change (DiffProof.devs W (fun _ _ => true) (Datatypes.S fuel) Nil (Node p d s h a l r)) with
        (ev_add (Node p d s h a l r) ++ DiffProof.devs W (fun _ _ => true) fuel Nil l
           ++ DiffProof.devs W (fun _ _ => true) fuel Nil r).
      rewrite IH, IH by lia. cbn [entries]. rewrite !map_app. destruct a; reflexivity. }
    generalize (entries t). intros es. revert st. induction es as [|e es IH]; intros st; [reflexivity|].
    cbn [map run_list on_event]. destruct (cb (fst e) (snd e) st) as [st' [|]]; [apply IH|reflexivity].
  - intros e e' [].
  - unfold dm. destruct t; unfold fuelW; cbn [depth] in *; lia.
Qed.
End DiffChar.
