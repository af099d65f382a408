(* SimTable6.v - simulation of ipv6/tablex.go and table.go over uint128 structs
   (Table6.v) by the width-128 instance of Table.v. *)
From Verif Require Export Sim6 Table6.
From Coq Require Import Arith Lia ZifyBool ZifyNat ZifyN.

Section SimTable.
Context {T : Type}.
Variable zeroT : T.
Variable box : T -> option T.
Variable goeq : T -> T -> res bool.

Definition tblsim (t6 : tableX6 T) (t : tableX T) : Prop := tsim (tx_trie6 t6) (tx_trie t) /\ tx_eq6 t6 = tx_eq t.
Definition osim : option prefix6 -> option prefix -> Prop := optsim psim.
Local Notation mtsim := (optsim tblsim).

Lemma prefixI_sim p6 p : osim p6 p -> psim (prefixI6 p6) (prefixI p).
Proof. destruct p6, p; cbn; try contradiction; auto. intros _. apply psim_zero. Qed.
Lemma set_trie_sim c6 c t6 t : tblsim c6 c -> tsim t6 t -> tblsim (set_trie6 c6 t6) (set_trie c t).
Proof. intros [_ E] H. split; [exact H|exact E]. Qed.
Lemma NewTable_sim : mtsim (NewTable_6 goeq) (NewTable_ goeq).
Proof. split; [constructor|reflexivity]. Qed.
Lemma NewTableCustom_sim g : mtsim (NewTableCustomCompare_6 g) (@NewTableCustomCompare_ T g).
Proof. split; [constructor|reflexivity]. Qed.
Lemma zero_table_sim : tblsim zero_table6 zero_table.
Proof. split; [constructor|reflexivity]. Qed.
Lemma tbl_Table_sim m6 m : mtsim m6 m -> tblsim (tbl_Table6 m6) (tbl_Table m).
Proof. destruct m6, m; cbn; try contradiction; auto. intros _. apply zero_table_sim. Qed.
Lemma Table__sim t6 t : tblsim t6 t -> mtsim (Table_6 goeq t6) (Table_ goeq t).
Proof. intros [H E]. unfold Table_6, Table_. rewrite E. split; [exact H|reflexivity]. Qed.

Lemma tbl_Insert_sim m6 m p6 p v : mtsim m6 m -> osim p6 p -> rsim (pairsim mtsim eq) (tbl_Insert6 box m6 p6 v) (tbl_Insert 128 box m p v).
Proof.
  intros M P. destruct m6 as [c6|], m as [c|]; try contradiction M; [|exact I]. unfold tbl_Insert6, tbl_Insert.
  apply (rsim_bind tesim); [apply Insert_sim; [apply M|apply prefixI_sim; exact P]|]. intros [n6 e6] [n e] [X E]. cbn [fst snd] in *. subst e6.
  destruct e; split; cbn [fst snd]; auto. apply (set_trie_sim c6 c); assumption.
Qed.
Lemma tbl_Update_sim m6 m p6 p v : mtsim m6 m -> osim p6 p -> rsim (pairsim mtsim eq) (tbl_Update6 box m6 p6 v) (tbl_Update 128 box m p v).
Proof.
  intros M P. destruct m6 as [c6|], m as [c|]; try contradiction M; [|exact I]. unfold tbl_Update6, tbl_Update.
  rewrite (proj2 M). apply (rsim_bind tesim); [apply Update_sim; [apply M|apply prefixI_sim; exact P]|]. intros [n6 e6] [n e] [X E]. cbn [fst snd] in *. subst e6.
  destruct e; split; cbn [fst snd]; auto. apply (set_trie_sim c6 c); assumption.
Qed.
Lemma tbl_InsertOrUpdate_sim m6 m p6 p v : mtsim m6 m -> osim p6 p -> rsim mtsim (tbl_InsertOrUpdate6 box m6 p6 v) (tbl_InsertOrUpdate 128 box m p v).
Proof.
  intros M P. destruct m6 as [c6|], m as [c|]; try contradiction M; [|exact I]. unfold tbl_InsertOrUpdate6, tbl_InsertOrUpdate.
  rewrite (proj2 M). apply (rsim_bind tsim); [apply InsertOrUpdate_sim; [apply M|apply prefixI_sim; exact P]|]. intros n6 n X.
  apply (set_trie_sim c6 c); assumption.
Qed.
Lemma tbl_GetOrInsert_sim m6 m p6 p v : mtsim m6 m -> osim p6 p -> rsim (pairsim mtsim eq) (tbl_GetOrInsert6 zeroT box m6 p6 v) (tbl_GetOrInsert 128 zeroT box m p v).
Proof.
  intros M P. destruct m6 as [c6|], m as [c|]; try contradiction M; [|exact I]. unfold tbl_GetOrInsert6, tbl_GetOrInsert.
  apply (rsim_bind tdsim); [apply GetOrInsert_sim; [apply M|apply prefixI_sim; exact P]|]. intros [n6 e6] [n e] [X E]. cbn [fst snd] in *. subst e6.
  split; cbn [fst snd]; auto. apply (set_trie_sim c6 c); assumption.
Qed.
Lemma tbl_Remove_sim m6 m p6 p : mtsim m6 m -> osim p6 p -> rsim (pairsim mtsim eq) (tbl_Remove6 m6 p6) (@tbl_Remove 128 T m p).
Proof.
  intros M P. destruct m6 as [c6|], m as [c|]; try contradiction M; [|exact I]. unfold tbl_Remove6, tbl_Remove.
  pose proof (del_sim _ _ (proj1 M) _ _ (prefixI_sim _ _ P)) as X. destruct (del6 _ _) as [n6 e6], (del _ _ _) as [n e]. destruct X as [X E].
  cbn [fst snd] in *. subst e6. split; cbn [fst snd]; auto. apply (set_trie_sim c6 c); assumption.
Qed.

Lemma longestMatch_sim t6 t p6 p : tblsim t6 t -> osim p6 p ->
  pairsim eq psim (longestMatch6 t6 p6) (longestMatch 128 t p).
Proof.
  intros [H _] P. apply prefixI_sim in P. unfold longestMatch6, longestMatch.
  pose proof (Match_sim _ _ H _ _ P) as X. destruct (Match6 _ _) as [[q6 d6]|], (Match _ _ _) as [[q d]|]; try contradiction X.
  - destruct X as [Q E]. cbn [fst snd] in *. subst d6. rewrite (psim_len _ _ Q), (psim_len _ _ P). destruct (plen q =? _); split; cbn; auto.
  - split; cbn; auto. apply psim_zero.
Qed.
Lemma tx_Get_sim t6 t p6 p : tblsim t6 t -> osim p6 p -> tx_Get6 t6 p6 = tx_Get 128 t p.
Proof.
  intros H P. unfold tx_Get6, tx_Get. pose proof (longestMatch_sim _ _ _ _ H P) as X.
  destruct (longestMatch6 _ _) as [[d6 k6] q6], (longestMatch _ _ _) as [[d k] q]. destruct X as [E _]. cbn [fst] in E. injection E as -> ->. reflexivity.
Qed.
Lemma tx_LongestMatch_sim t6 t p6 p : tblsim t6 t -> osim p6 p -> pairsim eq psim (tx_LongestMatch6 t6 p6) (tx_LongestMatch 128 t p).
Proof.
  intros H P. unfold tx_LongestMatch6, tx_LongestMatch. pose proof (longestMatch_sim _ _ _ _ H P) as X.
  destruct (longestMatch6 _ _) as [[d6 k6] q6], (longestMatch _ _ _) as [[d k] q]. destruct X as [E Q]. cbn [fst snd] in *. injection E as -> ->.
  destruct k; split; cbn; auto. apply psim_zero.
Qed.
Lemma Get_sim t6 t p6 p : tblsim t6 t -> osim p6 p -> Get6 zeroT t6 p6 = Get 128 zeroT t p.
Proof. intros H P. unfold Get6, Get. rewrite (tx_Get_sim _ _ _ _ H P). reflexivity. Qed.
Lemma LongestMatch_sim t6 t p6 p : tblsim t6 t -> osim p6 p -> pairsim eq psim (LongestMatch6 zeroT t6 p6) (LongestMatch 128 zeroT t p).
Proof.
  intros H P. unfold LongestMatch6, LongestMatch. pose proof (tx_LongestMatch_sim _ _ _ _ H P) as X.
  destruct (tx_LongestMatch6 _ _) as [[d6 k6] q6], (tx_LongestMatch _ _ _) as [[d k] q]. destruct X as [E Q]. cbn [fst snd] in *. injection E as -> ->.
  destruct (negb k); split; cbn; auto.
Qed.
Lemma NumEntries_sim t6 t : tblsim t6 t -> NumEntries6 t6 = NumEntries t.
Proof. intros [H _]. apply tsim_NumNodes. exact H. Qed.
Lemma tbl_NumEntries_sim m6 m : mtsim m6 m -> tbl_NumEntries6 m6 = tbl_NumEntries m.
Proof. destruct m6, m; cbn; try contradiction; auto. apply NumEntries_sim. Qed.
Lemma tbl_Get_sim m6 m p6 p : mtsim m6 m -> osim p6 p -> tbl_Get6 zeroT m6 p6 = tbl_Get 128 zeroT m p.
Proof. intros M P. destruct m6, m; try contradiction M; [|reflexivity]. unfold tbl_Get6, tbl_Get. rewrite (tx_Get_sim _ _ _ _ M P). reflexivity. Qed.
Lemma tbl_LongestMatch_sim m6 m p6 p : mtsim m6 m -> osim p6 p -> pairsim eq psim (tbl_LongestMatch6 zeroT m6 p6) (tbl_LongestMatch 128 zeroT m p).
Proof.
  intros M P. destruct m6, m; try contradiction M; [|split; cbn; auto; apply psim_zero]. unfold tbl_LongestMatch6, tbl_LongestMatch.
  pose proof (tx_LongestMatch_sim _ _ _ _ M P) as X.
  destruct (tx_LongestMatch6 _ _) as [[d6 k6] q6], (tx_LongestMatch _ _ _) as [[d k] q]. destruct X as [E Q]. cbn [fst snd] in *. injection E as -> ->.
  split; cbn; auto.
Qed.
Lemma Build_sim t6 t b6 b : tblsim t6 t ->
  (forall m6 m, mtsim m6 m -> rsim (pairsim mtsim eq) (b6 m6) (b m)) ->
  rsim tblsim (Build6 goeq t6 b6) (Build goeq t b).
Proof.
  intros H B. apply (rsim_bind (pairsim mtsim eq)); [apply B; apply Table__sim; exact H|]. intros [m6 k6] [m k] [M E]. cbn [fst snd] in *. subst k6.
  destruct k; [apply tbl_Table_sim; exact M|exact H].
Qed.

Variable peq6 : trie6 T -> trie6 T -> bool.
Variable peq : trie T -> trie T -> bool.
Hypothesis Hpeq : forall a6 a b6 b, tsim a6 a -> tsim b6 b -> peq6 a6 b6 = peq a b.

Lemma tbl_Aggregate_sim t6 t : tblsim t6 t -> rsim tblsim (tbl_Aggregate6 peq6 t6) (tbl_Aggregate peq t).
Proof.
  intros [H E]. unfold tbl_Aggregate6, tbl_Aggregate. rewrite E. apply (rsim_bind tsim); [apply (Aggregate_sim peq6 peq Hpeq); exact H|].
  intros n6 n X. split; [exact X|reflexivity].
Qed.

Section State.
Context {S6 S : Type}.
Variable RS : S6 -> S -> Prop.
Definition ukvsim (f6 : prefix6 -> T -> S6 -> S6 * bool) (f : prefix -> T -> S -> S * bool) : Prop :=
  forall p6 p v x6 x, psim p6 p -> RS x6 x -> ssim RS (f6 p6 v x6) (f p v x).
Definition ukvvsim (f6 : prefix6 -> T -> T -> S6 -> S6 * bool) (f : prefix -> T -> T -> S -> S * bool) : Prop :=
  forall p6 p v w x6 x, psim p6 p -> RS x6 x -> ssim RS (f6 p6 v w x6) (f p v w x).
Lemma tbl_Walk_sim t6 t f6 f st6 st : tblsim t6 t -> ukvsim f6 f -> RS st6 st ->
  rsim (ssim RS) (tbl_Walk6 zeroT peq6 t6 f6 st6) (tbl_Walk 128 zeroT peq t f st).
Proof. intros [H _] F R. apply (Walk_sim peq6 peq Hpeq RS); auto. intros p6 p d x6 x P X. apply F; assumption. Qed.
Lemma tbl_Diff_sim l6 l r6 r c6 c a6 a b6 b u6 u st6 st : tblsim l6 l -> tblsim r6 r ->
  optsim ukvvsim c6 c -> optsim ukvsim a6 a -> optsim ukvsim b6 b -> optsim ukvsim u6 u -> RS st6 st ->
  rsim (ssim RS) (tbl_Diff6 zeroT peq6 l6 r6 c6 a6 b6 u6 st6) (tbl_Diff 128 zeroT peq l r c a b u st).
Proof.
  intros [L EL] [R ER] C A B U X. unfold tbl_Diff6, tbl_Diff. rewrite EL. apply (Diff_sim peq6 peq Hpeq RS); auto.
  assert (ONE : forall f6 f, optsim ukvsim f6 f ->
     optsim (cbsim RS) (option_map (fun g (n : trie6 T) => g (prefix_of6 n) (unbox zeroT (data_of6 n))) f6)
                  (option_map (fun g (n : trie T) => g (prefix_of n) (unbox zeroT (data_of n))) f)).
  { intros f6 f F. destruct f6, f; try contradiction F; [|exact I]. intros t6 t x6 x H Y. cbn. rewrite (tsim_data _ _ H). apply F; [apply tsim_prefix; exact H|exact Y]. }
  constructor; cbn [Removed6 Removed Added6 Added Modified6 Modified Same6 Same]; auto.
  destruct c6, c; try contradiction C; [|exact I]. intros t6 t w6 w x6 x H H' Y. rewrite (tsim_data _ _ H), (tsim_data _ _ H').
  apply C; [apply tsim_prefix; exact H|exact Y].
Qed.
Definition mapsim (f6 : prefix6 -> T -> S6 -> S6 * T) (f : prefix -> T -> S -> S * T) : Prop :=
  forall p6 p v x6 x, psim p6 p -> RS x6 x -> pairsim RS eq (f6 p6 v x6) (f p v x).
Lemma tbl_Map_sim t6 t f6 f st6 st : tblsim t6 t -> optsim mapsim f6 f -> RS st6 st ->
  rsim (pairsim RS tblsim) (tbl_Map6 zeroT box t6 f6 st6) (tbl_Map zeroT box t f st).
Proof.
  intros [H E] F R. destruct f6 as [f6|], f as [f|]; try contradiction F; [|split; cbn; auto; split; auto].
  unfold tbl_Map6, tbl_Map. rewrite E.
  apply (rsim_bind (pairsim RS tsim)).
  - apply Map_sim; auto. intros p6 p d x6 x P X. pose proof (F p6 p (unbox zeroT d) x6 x P X) as Y.
    destruct (f6 _ _ _) as [y6 v6], (f _ _ _) as [y v]. destruct Y as [Y V]. cbn [fst snd] in *. subst v6. split; auto.
  - intros [y6 n6] [y n] [Y N]. cbn [fst snd] in *. split; cbn [fst snd]; auto. split; [exact N|reflexivity].
Qed.
End State.
End SimTable.
