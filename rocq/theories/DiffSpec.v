(* DiffSpec.v - specification: the order in which a Diff reports. *)
From Verif Require Export TableSpec.

(* b is the smallest block that contains every prefix satisfying P *)
Definition tightest (W : N) (P : prefix -> Prop) (b : prefix) : Prop :=
  wf_prefix W b /\ (forall e, P e -> covers W b e) /\
  (forall b', wf_prefix W b' -> (forall e, P e -> covers W b' e) -> plen b' <= plen b).

(* L and R are the sets of prefixes stored on the left and on the right.  A
   prefix p on the left and a prefix q on the right are swapped when, inside
   the smallest block m around both, everything on the left lies in p's half,
   everything on the right lies in q's half, and the smallest block around
   what is on the left is smaller than the smallest block around what is on
   the right. *)
Definition swapped (W : N) (L R : prefix -> Prop) (p q : prefix) : Prop :=
  exists m hl hr,
    tightest W (fun e => e = p \/ e = q) m /\
    tightest W (fun e => L e /\ covers W m e) hl /\
    tightest W (fun e => R e /\ covers W m e) hr /\
    plen m < plen hr /\ plen hr < plen hl.

(* Report x comes before report y: lexicographically by prefix, except for a
   swapped pair of a removed and an added prefix, which comes the other way round *)
Definition diff_before {T} (W : N) (L R : prefix -> Prop) (x y : report T) : Prop :=
  match x, y with
  | RRemoved p _, RAdded q _ =>
    (lex_lt W p q /\ ~ swapped W L R p q) \/ (lex_lt W q p /\ swapped W L R p q)
  | RAdded q _, RRemoved p _ =>
    (lex_lt W q p /\ ~ swapped W L R p q) \/ (lex_lt W p q /\ swapped W L R p q)
  | _, _ => lex_lt W (rprefix x) (rprefix y)
  end.
