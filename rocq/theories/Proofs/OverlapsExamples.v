(** Examples of tokens that stand for several terminals. *)
From Coq Require Import Arith Bool String Ascii List Lia.
From Verif Require Import Base.Prelude Spec.Grammar Spec.Validity Spec.Observers Spec.Nullable Spec.Values Spec.Causes Spec.Overlaps.
From Verif Require Import Model.Error Model.TokenTree Model.Terminal Model.Constructor Model.CodeGen Model.Runtime.
From Verif Require Import Proofs.Refutations Proofs.LR1Final Proofs.GenExamples Proofs.GenMain.
Import ListNotations.
Open Scope string_scope.
Open Scope list_scope.

(** [<S>: u32 => Num(1) Num(_) { #0 + #1 };]: the token [Num(1)] stands for both terminals, but only
    one of them can come first, and only the other can come next. *)
Definition one : user_symbol := mk_symbol "Num" (PGPattern "1").
Definition decided_rules : list prule :=
  [ mk_prule "R" u32 [PNProduction "S"] None;
    mk_prule "S" u32 [PNSymbol one; PNSymbol num] (block [hash; TLiteral "0"; TPunct "+"%char Alone; hash; TLiteral "1"]) ].
Definition decided_gi : grammar_info := info (TTEnum [TIdent "Tok"]) [("R", u32); ("S", u32)] decided_rules.
Definition decided_p : program := prog forward decided_gi.
Definition decided_tokens : list (tok demo) := [Num 1; Num 1].
Definition decided_tree : dtree demo := Node 0 [Node 1 [Leaf (one, Num 1); Leaf (num, Num 1)]].

Lemma decided_generated (bm : BuildMode) : generated (bm := bm) all_literals decided_gi decided_p.
Proof. generate. apply forward_ok. Qed.

Lemma decided_rules_eq : gi_rules decided_gi = decided_rules.
Proof. vm_compute. reflexivity. Qed.

Lemma decided_first (bm : BuildMode) : first_complete (bm := bm) (source (gi_rules decided_gi)).
Proof. apply direct_first_complete. apply (direct_b_ok _ []). vm_compute. reflexivity. Qed.

Lemma decided_productive : productive (source (gi_rules decided_gi)).
Proof.
  rewrite decided_rules_eq. pose (s := Node (T := user_symbol) 1 [Leaf one; Leaf num]).
  apply (productive_ok' _ (fun i => nth i [Node 0 [s]; s] s) 20). vm_compute. reflexivity.
Qed.

Lemma decided_language w : language (source (gi_rules decided_gi)) w -> w = [one; num].
Proof.
  rewrite decided_rules_eq. intros (t & r0 & ts & Hr & D & _). cbn in Hr. injection Hr as Hr. subst r0. cbn in D.
  inversion D as [| | |i r ts1 w1 ns w2 ts2 Hi D1 D2 Hs Hw]; clear D. inversion D2; subst w2 ts2 ns.
  destruct i as [|[|i]]; cbn in Hi; [| |destruct i; discriminate].
  { injection Hi as Hi. rewrite <- Hi in Hs. discriminate. }
  injection Hi as Hi. rewrite <- Hi in D1.
  cbn in D1. inversion D1 as [|a ns w3 t3 D3| |]; subst. inversion D3 as [|b ns' w4 t4 D4| |]; subst. inversion D4; subst. reflexivity.
Qed.

Lemma decided_is_decided : decided demo decided_gi (leaves decided_tree).
Proof.
  intros l1 s k l2 Hl (a & b & Hne & _ & _ & (va & Ha) & (vb & Hb)). apply decided_language in Ha, Hb. apply Hne.
  destruct l1 as [|x [|y l1]].
  - cbn in Ha, Hb. congruence.
  - cbn in Hl. injection Hl as <- _. cbn in Ha, Hb. congruence.
  - cbn in Hl. injection Hl as _ _ Hl. destruct l1; discriminate.
Qed.

Lemma decided_parses : parses_tokens demo decided_gi decided_tokens decided_tree /\ sym_matches demo decided_gi one (Num 1) = true /\ sym_matches demo decided_gi num (Num 1) = true /\
  snd (eval demo decided_gi decided_tree) = inl (RUser 2).
Proof. split; [apply (parses_ok demo decided_gi decided_tree); vm_compute; reflexivity|]. vm_compute. auto. Qed.

(** In the grammar [overlap_gi] the token [Num(1)] is doubtful at the start. *)
Lemma overlap_doubtful_ex : doubtful demo overlap_gi [] (Num 1).
Proof.
  exists one, num. split; [discriminate|]. split; [vm_compute; reflexivity|]. split; [vm_compute; reflexivity|]. split.
  - exists [variant "X"]. destruct (parses_ok demo overlap_gi (Node 0 [Node 1 [Node 3 [Leaf (one, Num 1)]; Leaf (variant "X", TVariant "X" None)]])) as (_ & _ & H); [vm_compute; reflexivity|].
    eexists. exact H.
  - exists [variant "Y"]. destruct (parses_ok demo overlap_gi overlap_tree) as (_ & _ & H); [vm_compute; reflexivity|]. eexists. exact H.
Qed.

Lemma overlap_first (bm : BuildMode) : first_complete (bm := bm) (source (gi_rules overlap_gi)).
Proof. apply direct_first_complete. apply (direct_b_ok _ []). vm_compute. reflexivity. Qed.

Lemma overlap_productive : productive (source (gi_rules overlap_gi)).
Proof.
  assert (He : gi_rules overlap_gi = overlap_rules) by (vm_compute; reflexivity). rewrite He.
  pose (a := Node (T := user_symbol) 3 [Leaf one]). pose (b := Node (T := user_symbol) 4 [Leaf num]).
  pose (s := Node 1 [a; Leaf (variant "X")]).
  apply (productive_ok' _ (fun i => nth i [Node 0 [s]; s; Node 2 [b; Leaf (variant "Y")]; a; b] s) 20). vm_compute. reflexivity.
Qed.
