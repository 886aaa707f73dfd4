(** Concrete grammars, the parsers generated for them, and runs of these. *)
From Coq Require Import Arith Bool String Ascii NArith List Lia Permutation.
From Verif Require Import Base.Prelude Spec.Grammar Spec.Validity Spec.Nullable Spec.Observers Model.Error.
From Verif Require Import Model.Vocabulary Model.IndexedGrammar Model.FirstMap Model.LRTable Model.StateMap.
From Verif Require Import Model.TokenTree Model.Terminal Model.Constructor Model.CodeGen Model.Runtime Spec.Values.
From Verif Require Import Proofs.Refutations Proofs.Fuel Proofs.LR1Final Proofs.LR1Refute Proofs.GenMain Spec.Substitution Proofs.Substitution.
Import ListNotations.
Open Scope string_scope.
Open Scope list_scope.

(** Building what the macro has at hand when it generates a parser. *)
Definition build_info {bm : BuildMode} (tt : terminal_type) (types : hash_map string (option (list ttree))) (rules : list prule)
  : outcome (lr_error user_symbol string) grammar_info :=
  ig <- indexed_build 50 (source rules) ;;
  t <- table_build ig 50 ;;
  Ok (mk_grammar_info tt types rules ig t).

Definition eps_alone_b (rules : list prule) : bool :=
  forallb (fun r => implb (existsb pnode_is_epsilon (pr_nodes r)) (Nat.eqb (List.length (pr_nodes r)) 1)) rules.
Definition typed_b (types : hash_map string (option (list ttree))) (rules : list prule) : bool :=
  forallb (fun r => match hm_get (pr_name r) types with Some _ => true | None => false end) rules.
Definition bound_b (rules : list prule) : bool :=
  forallb (fun r => match pr_block r, pr_type r, pr_nodes r with None, Some _, [PNEpsilon] => false | _, _, _ => true end) rules.

Lemma build_info_accepted {bm : BuildMode} tt types rules gi : build_info tt types rules = Ok gi ->
  eps_alone_b rules = true -> typed_b types rules = true -> accepted gi.
Proof.
  unfold build_info. intros Hb He Ht. destruct (indexed_build 50 (source rules)) as [ig| | |] eqn:H1; try discriminate. cbn [bind] in Hb.
  destruct (table_build ig 50) as [t| | |] eqn:H2; try discriminate. cbn [bind] in Hb. injection Hb as <-. constructor; simpl; eauto.
  - intros r Hr Hin. unfold eps_alone_b in He. rewrite forallb_forall in He. specialize (He r Hr).
    assert (Hx : existsb pnode_is_epsilon (pr_nodes r) = true) by (apply existsb_exists; exists PNEpsilon; auto). rewrite Hx in He. simpl in He.
    apply Nat.eqb_eq in He. destruct (pr_nodes r) as [|nd [|nd' l]]; try discriminate. destruct Hin as [->|[]]. reflexivity.
  - intros r Hr. unfold typed_b in Ht. rewrite forallb_forall in Ht. specialize (Ht r Hr). destruct (hm_get (pr_name r) types); [eauto|discriminate].
Qed.

Lemma build_info_rules {bm : BuildMode} tt types rules gi : build_info tt types rules = Ok gi -> gi_rules gi = rules.
Proof.
  unfold build_info. intros Hb. destruct (indexed_build 50 (source rules)) as [ig| | |]; try discriminate. cbn [bind] in Hb.
  destruct (table_build ig 50); try discriminate. cbn [bind] in Hb. injection Hb as <-. reflexivity.
Qed.

Lemma bound_b_ok rules : bound_b rules = true -> defaults_bound rules.
Proof.
  unfold bound_b. rewrite forallb_forall. intros Hb r ty Hr H1 H2 H3. specialize (Hb r Hr). rewrite H1, H2, H3 in Hb. discriminate.
Qed.

(** Hash orders. *)
Definition forward : hash_orders := mk_orders (fun m => m) (fun _ s => s) (fun _ m => m) (fun _ m => m).
Definition backward : hash_orders := mk_orders (fun m => rev m) (fun _ s => rev s) (fun _ m => rev m) (fun _ m => rev m).

Lemma forward_ok : orders_ok forward.
Proof. constructor; simpl; auto. Qed.
Lemma backward_ok : orders_ok backward.
Proof. constructor; simpl; intros; apply Permutation_sym, Permutation_rev. Qed.


Definition get {E A} (m : outcome E A) (d : A) : A := match m with Ok a => a | _ => d end.
Definition no_info : grammar_info := mk_grammar_info (TTRaw []) [] [] (mk_indexed [] [] vocab_empty) (mk_table [] [] 0).
Definition no_program : program := mk_program [] [] 0.
Definition all_literals (_ : string) : bool := true.

Definition info (tt : terminal_type) types rules : grammar_info := get (build_info (bm := true) tt types rules) no_info.
Definition prog (ho : hash_orders) (gi : grammar_info) : program := get (generate_parser (bm := true) all_literals ho gi) no_program.

Definition is_ok {E A} (m : outcome E A) : bool := match m with Ok _ => true | _ => false end.

Lemma get_ok {E A} (m : outcome E A) d : is_ok m = true -> m = Ok (get m d).
Proof. destruct m; simpl; congruence. Qed.

Lemma generated_ex (bm : BuildMode) ho tt types rules :
  is_ok (build_info (bm := true) tt types rules) = true -> build_info (bm := bm) tt types rules = build_info (bm := true) tt types rules ->
  is_ok (generate_parser (bm := true) all_literals ho (info tt types rules)) = true ->
  generate_parser (bm := bm) all_literals ho (info tt types rules) = generate_parser (bm := true) all_literals ho (info tt types rules) ->
  eps_alone_b rules = true -> typed_b types rules = true -> bound_b rules = true -> orders_ok ho ->
  generated (bm := bm) all_literals (info tt types rules) (prog ho (info tt types rules)).
Proof.
  intros H1 H2 H3 H4 H5 H6 H7 Ho. assert (Hb : build_info (bm := bm) tt types rules = Ok (info tt types rules)) by (rewrite H2; exact (get_ok _ no_info H1)). split.
  - rewrite (build_info_rules _ _ _ _ Hb). apply bound_b_ok. auto.
  - exists ho. split; [eapply build_info_accepted; eauto|]. split; auto. rewrite H4. apply get_ok. auto.
Qed.

(** Tokens with strings as literals and numbers as fields; constructors add up
    the numbers, and fail if there are too many. *)
Definition number {A B} (v : rval A nat B) (f : B -> nat) : nat := match v with RPay n => n | RUser u => f u | _ => 0 end.
Definition demo : rust := mk_rust string nat nat string string_dec
  (fun s => if eqb s "'\x61'" then "'a'" else s)
  (fun pat f => eqb pat "1" && Nat.eqb f 1)
  (fun i _ vars => let s := list_sum (map (fun e => number (snd e) (fun u => u)) vars) in if Nat.ltb 9 s then inr "overflow" else inl (RUser s))
  (fun _ v => inl (RUser (number v (fun u => u)))).

Definition no_error (e : string) : UErr demo := e.
Definition run (bm : BuildMode) (p : program) (input : nat -> option (tok demo + string)) :=
  parse_fallible (bm := bm) (E := unit) demo no_error input 60 p.

(** The result of a run, the constructors it ran and the calls of [next]. *)
Definition summary {E SErr} {R : rust} (m : outcome E (pstate (SErr := SErr) R * (val R + parser_error R)))
  : option ((val R + parser_error R) * list nat * nat) :=
  match m with Ok (st, r) => Some (r, map fst (st_log R st), s_calls R (st_stream R st)) | _ => None end.

Lemma summary_ok {E SErr} {R : rust} (m : outcome E (pstate (SErr := SErr) R * (val R + parser_error R))) r l n : summary m = Some (r, l, n) ->
  exists st, m = Ok (st, r) /\ map fst (st_log R st) = l /\ s_calls R (st_stream R st) = n.
Proof. destruct m as [[st r']| | |]; simpl; intros H; try discriminate. injection H as <- <- <-. eauto. Qed.

(** Checking the side conditions. *)
Definition terminals (rules : list prule) : list user_symbol :=
  flat_map (fun r => flat_map (fun nd => match nd with PNSymbol s => [s] | _ => [] end) (pr_nodes r)) rules.

Lemma terminals_ok rules s : terminal_in rules s -> In s (terminals rules).
Proof.
  intros (r & Hr & Hs). apply in_flat_map. exists r. split; auto. apply in_flat_map. exists (PNSymbol s). simpl. auto.
Qed.

Definition unambiguous_b R gi (ks : list (tok R)) : bool :=
  forallb (fun k => forallb (fun s => forallb (fun s' => implb (sym_matches R gi s k && sym_matches R gi s' k) (if eq_dec s s' then true else false))
    (terminals (gi_rules gi))) (terminals (gi_rules gi))) ks.

Lemma unambiguous_ok R gi ks : unambiguous_b R gi ks = true -> unambiguous_tokens R gi ks.
Proof.
  unfold unambiguous_b. intros Hb k s s' Hk Hs Hs' H1 H2. apply terminals_ok in Hs, Hs'.
  rewrite forallb_forall in Hb. specialize (Hb k Hk). rewrite forallb_forall in Hb. specialize (Hb s Hs). rewrite forallb_forall in Hb.
  specialize (Hb s' Hs'). rewrite H1, H2 in Hb. simpl in Hb. destruct (eq_dec s s'); [auto|discriminate].
Qed.

Definition symbols_eqb (a b : list user_symbol) : bool := if list_eq_dec eq_dec a b then true else false.

Definition parses_b R gi (d : dtree R) : bool :=
  forallb (fun x => sym_matches R gi (fst x) (snd x)) (leaves d) &&
  match check_tree (source (gi_rules gi)) 30 (tmap fst d) with Some w => symbols_eqb w (map fst (leaves d)) | None => false end.

Lemma parses_ok R gi d : parses_b R gi d = true -> parses_tokens R gi (map snd (leaves d)) d.
Proof.
  unfold parses_b. intros Hb. apply andb_true_iff in Hb as (H1 & H2). rewrite forallb_forall in H1. split; auto. split.
  - intros s k Hin. exact (H1 _ Hin).
  - destruct (check_tree _ 30 (tmap fst d)) as [w|] eqn:Hc; [|discriminate]. unfold symbols_eqb in H2. destruct (list_eq_dec eq_dec w _) as [<-|]; [|discriminate].
    eapply check_tree_ok; eauto.
Qed.

Lemma productive_ok' {T L} `{EqDec T} `{EqDec L} (g : grammar T L) (f : nat -> tree T) n :
  forallb (fun i => match nth_error g i with Some r => match check g n [Production (symbol r)] [f i] with Some _ => true | None => false end | None => true end)
    (seq 0 (List.length g)) = true -> productive g.
Proof.
  rewrite forallb_forall. intros Hf r Hr. apply In_nth_error in Hr as (i & Hi).
  specialize (Hf i). rewrite Hi in Hf. destruct (check g n [Production (symbol r)] [f i]) as [w|] eqn:Hc.
  - exists w, [f i]. eapply check_ok; eauto.
  - discriminate Hf. apply in_seq. split; [lia|]. simpl. apply nth_error_Some. congruence.
Qed.

Ltac generate := apply generated_ex;
  [vm_compute; reflexivity|match goal with bm : BuildMode |- _ => destruct bm; vm_compute; reflexivity end
  |vm_compute; reflexivity|match goal with bm : BuildMode |- _ => destruct bm; vm_compute; reflexivity end
  |vm_compute; reflexivity|vm_compute; reflexivity|vm_compute; reflexivity|].

(** Sums of numbers. *)
Definition u32 : option (list ttree) := Some [TIdent "u32"].
Definition block (ts : list ttree) : option (delimiter * list ttree) := Some (Brace, ts).
Definition hash : ttree := TPunct "#" Alone.
Definition num : user_symbol := mk_symbol "Num" PGWildcard.
Definition plus : user_symbol := mk_symbol "Plus" PGNone.
Definition calc_rules : list prule :=
  [ mk_prule "S" u32 [PNProduction "E"] None;
    mk_prule "E" u32 [PNProduction "E"; PNSymbol plus; PNProduction "N"] (block [hash; TLiteral "0"; TPunct "+" Alone; hash; TIdent "N"]);
    mk_prule "E" u32 [PNProduction "N"] (block [hash; TIdent "N"]);
    mk_prule "N" u32 [PNSymbol num] (block [hash; TLiteral "0"]);
    mk_prule "N" u32 [PNSymbol (mk_symbol "Zero" PGNone); PNProduction "O"] (block [TLiteral "0"]);
    mk_prule "O" None [PNEpsilon] None;
    mk_prule "O" None [PNSymbol (mk_symbol "Dot" PGNone)] None ].
Definition calc_types : hash_map string (option (list ttree)) := [("S", u32); ("E", u32); ("N", u32); ("O", None)].
Definition calc : grammar_info := info (TTEnum [TIdent "Tok"]) calc_types calc_rules.
Definition calc_p : program := prog forward calc.

Definition Num (n : nat) : tok demo := TVariant "Num" (Some n).
Definition Plus : tok demo := TVariant "Plus" None.
Definition Zero : tok demo := TVariant "Zero" None.
Definition calc_tokens : list (tok demo) := [Num 2; Plus; Num 3; Plus; Zero].
Definition calc_tree (a b : nat) : dtree demo :=
  Node 0 [Node 1 [Node 1 [Node 2 [Node 3 [Leaf (num, Num a)]]; Leaf (plus, Plus); Node 3 [Leaf (num, Num b)]]; Leaf (plus, Plus);
    Node 4 [Leaf (mk_symbol "Zero" PGNone, Zero); Node 5 []]]].

Lemma calc_generated (bm : BuildMode) : generated (bm := bm) all_literals calc calc_p.
Proof. generate. apply forward_ok. Qed.

Lemma calc_generated_backward (bm : BuildMode) : generated (bm := bm) all_literals calc (prog backward calc).
Proof. generate. apply backward_ok. Qed.

Lemma calc_rules_eq : gi_rules calc = calc_rules.
Proof. vm_compute. reflexivity. Qed.

Lemma calc_direct : direct_epsilon (source (gi_rules calc)).
Proof. rewrite calc_rules_eq. apply (direct_b_ok _ ["O"]). vm_compute. reflexivity. Qed.

Lemma calc_first (bm : BuildMode) : first_complete (bm := bm) (source (gi_rules calc)).
Proof. apply direct_first_complete. exact calc_direct. Qed.

Lemma calc_productive : productive (source (gi_rules calc)).
Proof.
  rewrite calc_rules_eq. pose (o := Node (T := user_symbol) 5 []). pose (n := Node 3 [Leaf num]). pose (e := Node 2 [n]).
  apply (productive_ok' _ (fun i => nth i [Node 0 [e]; e; e; n; n; o; o] o) 20). vm_compute. reflexivity.
Qed.

(** The parser computes the value of the tree, with the constructors in
    post-order; a failing constructor ends the run. *)
Lemma calc_value : exists st, run true calc_p (of_list calc_tokens) = Ok (st, inl (RUser 5)) /\
  map fst (st_log demo st) = [3; 2; 3; 1; 5; 4; 1; 0] /\ s_calls demo (st_stream demo st) = 6.
Proof. apply (summary_ok (E := unit) (R := demo)). vm_compute. reflexivity. Qed.

Lemma calc_fails : exists st, run true calc_p (of_list [Num 9; Plus; Num 3; Plus; Plus]) = Ok (st, inr (UserError demo "overflow")) /\
  map fst (st_log demo st) = [3; 2; 3; 1] /\ s_calls demo (st_stream demo st) = 4.
Proof. apply (summary_ok (E := unit) (R := demo)). vm_compute. reflexivity. Qed.

Lemma calc_rejects : exists st, run true calc_p (of_list [Num 9; Plus; Plus; Num 1]) = Ok (st, inr (ParseError demo (Some Plus))) /\
  map fst (st_log demo st) = [3; 2] /\ s_calls demo (st_stream demo st) = 3.
Proof. apply (summary_ok (E := unit) (R := demo)). vm_compute. reflexivity. Qed.

Lemma calc_io : exists st, run true calc_p (of_list_then [Num 9; Plus] "io" (of_list [Num 1])) = Ok (st, inr (UserError demo "io")) /\
  map fst (st_log demo st) = [3; 2] /\ s_calls demo (st_stream demo st) = 3.
Proof. apply (summary_ok (E := unit) (R := demo)). vm_compute. reflexivity. Qed.

Lemma calc_io_late : exists st, run true calc_p (of_list_then [Plus; Num 1] "io" (of_list [Num 1])) = Ok (st, inr (ParseError demo (Some Plus))) /\
  map fst (st_log demo st) = [] /\ s_calls demo (st_stream demo st) = 1.
Proof. apply (summary_ok (E := unit) (R := demo)). vm_compute. reflexivity. Qed.

Lemma calc_tree_parses : parses_tokens demo calc calc_tokens (calc_tree 2 3) /\ unambiguous_tokens demo calc calc_tokens /\
  snd (eval demo calc (calc_tree 2 3)) = inl (RUser 5).
Proof.
  split; [apply (parses_ok demo calc (calc_tree 2 3)); vm_compute; reflexivity|].
  split; [apply unambiguous_ok; vm_compute; reflexivity|vm_compute; reflexivity].
Qed.

Lemma calc_tree_fails : parses_tokens demo calc [Num 9; Plus; Num 3; Plus; Zero] (calc_tree 9 3) /\
  unambiguous_tokens demo calc [Num 9; Plus; Num 3; Plus; Zero] /\
  snd (eval demo calc (calc_tree 9 3)) = inr "overflow".
Proof.
  split; [apply (parses_ok demo calc (calc_tree 9 3)); vm_compute; reflexivity|].
  split; [apply unambiguous_ok; vm_compute; reflexivity|vm_compute; reflexivity].
Qed.

Lemma calc_words : unambiguous_tokens demo calc calc_tokens /\ Forall (terminal_in (gi_rules calc)) [num; plus; num; plus; mk_symbol "Zero" PGNone] /\
  Forall2 (fun s k => sym_matches demo calc s k = true) [num; plus; num; plus; mk_symbol "Zero" PGNone] calc_tokens.
Proof.
  split; [apply calc_tree_parses|]. split.
  - rewrite calc_rules_eq.
    assert (H1 : terminal_in calc_rules num) by (exists (nth 3 calc_rules (mk_prule "" None [] None)); simpl; auto 10).
    assert (H2 : terminal_in calc_rules plus) by (exists (nth 1 calc_rules (mk_prule "" None [] None)); simpl; auto 10).
    assert (H3 : terminal_in calc_rules (mk_symbol "Zero" PGNone)) by (exists (nth 4 calc_rules (mk_prule "" None [] None)); simpl; auto 10).
    repeat constructor; auto.
  - repeat constructor.
Qed.

(** Constructors that never fail. *)
Definition tame : rust := mk_rust string nat nat string string_dec (fun s => s) (fun pat f => eqb pat "1" && Nat.eqb f 1)
  (fun _ _ vars => inl (RUser (list_sum (map (fun e => number (snd e) (fun u => u)) vars)))) (fun _ v => inl v).

Lemma tame_succeeds gi : constructors_succeed tame gi.
Proof.
  intros i vars. unfold rule_value. destruct (nth_error _ i) as [r|]; [|eauto]. destruct (pr_block r) as [bl|].
  - destruct (rewrite_provided_constructor _ _) as [c| | |]; eauto. destruct c; simpl; eauto.
  - destruct (pr_type r); [|eauto]. destruct vars as [|[]]; simpl; eauto.
Qed.

Lemma tame_words : unambiguous_tokens tame calc (calc_tokens : list (tok tame)) /\ Forall (terminal_in (gi_rules calc)) [num; plus; num; plus; mk_symbol "Zero" PGNone] /\
  Forall2 (fun s k => sym_matches tame calc s k = true) [num; plus; num; plus; mk_symbol "Zero" PGNone] calc_tokens.
Proof. split; [apply unambiguous_ok; vm_compute; reflexivity|]. split; [apply calc_words|repeat constructor]. Qed.

(** The FIRST bug again (C14), now in a generated parser: [C C] is a sentence,
    but the parser rejects its second token. *)
Definition variant (n : string) : user_symbol := mk_symbol n PGNone.
Definition first_rules : list prule :=
  [ mk_prule "S" None [PNProduction "A"; PNProduction "A"] None;
    mk_prule "A" None [PNProduction "B"; PNSymbol (variant "C")] None;
    mk_prule "B" None [PNEpsilon] None ].
Definition first_gi : grammar_info := info (TTEnum [TIdent "Tok"]) [("S", None); ("A", None); ("B", None)] first_rules.
Definition tC : tok demo := TVariant "C" None.
Definition first_tree : dtree demo :=
  Node 0 [Node 1 [Node 2 []; Leaf (variant "C", tC)]; Node 1 [Node 2 []; Leaf (variant "C", tC)]].

Lemma parse_more {bm : BuildMode} {E SErr} R (into : SErr -> UErr R) input p f f' x : f <= f' ->
  parse_fallible (E := E) R into input f p = Ok x -> parse_fallible (E := E) R into input f' p = Ok x.
Proof.
  intros Hf. unfold parse_fallible. intros Hx. eapply le_ok; [|exact Hx]. apply le_while; auto. intros; apply le_refl.
Qed.

Lemma first_generated (bm : BuildMode) : generated (bm := bm) all_literals first_gi (prog forward first_gi).
Proof. generate. apply forward_ok. Qed.

Lemma first_rejects (bmg bm : BuildMode) : exists gi p (R : rust) ts d st t, generated (bm := bmg) all_literals gi p /\
  unambiguous_tokens R gi ts /\ parses_tokens R gi ts d /\ productive (source (gi_rules gi)) /\
  (forall fuel, 60 <= fuel -> parse_fallible (E := unit) (SErr := UErr R) R (fun e => e) (of_list ts) fuel p = Ok (st, inr (ParseError R (Some t)))) /\
  s_calls R (st_stream R st) = 2 /\ nth_error ts 1 = Some t.
Proof.
  assert (Hr : exists st, parse_fallible (bm := bm) (E := unit) (SErr := UErr demo) demo (fun e => e) (of_list [tC; tC]) 60 (prog forward first_gi) =
    Ok (st, inr (ParseError demo (Some tC))) /\ map fst (st_log demo st) = [2] /\ s_calls demo (st_stream demo st) = 2).
  { apply (summary_ok (E := unit) (R := demo)). destruct bm; vm_compute; reflexivity. }
  destruct Hr as (st & Hr & _ & Hc). exists first_gi, (prog forward first_gi), demo, [tC; tC], first_tree, st, tC.
  split; [apply first_generated|].
  split; [apply unambiguous_ok; vm_compute; reflexivity|].
  split; [apply (parses_ok demo first_gi first_tree); vm_compute; reflexivity|].
  split.
  { apply (productive_ok' _ (fun i => nth i [tmap fst first_tree; Node 1 [Node 2 []; Leaf (variant "C")]; Node 2 []] (Node 0 [])) 20). vm_compute. reflexivity. }
  split; [|split; auto]. intros fuel Hf. eapply parse_more; eauto.
Qed.

(** A label that derives nothing: the parser consumes [A B B ...], though no
    sentence begins so. *)
Definition empty_rules : list prule :=
  [ mk_prule "S" None [PNSymbol (variant "A"); PNProduction "X"] None;
    mk_prule "X" None [PNSymbol (variant "B"); PNProduction "X"] None ].
Definition empty_gi : grammar_info := info (TTEnum [TIdent "Tok"]) [("S", None); ("X", None)] empty_rules.

Lemma empty_no_X : forall ns w ts, derives (source empty_rules) ns w ts -> In (Production "X") ns -> False.
Proof.
  induction 1 as [|t ns w ts Hd IH|ns w ts Hd IH|i r ts1 w1 ns w2 ts2 Hr H1 IH1 H2 IH2]; simpl; intros Hin.
  - destruct Hin.
  - destruct Hin as [He|Hin]; [discriminate|auto].
  - destruct Hin as [He|Hin]; [discriminate|auto].
  - destruct Hin as [He|Hin]; [|auto]. apply IH1. destruct i as [|[|i]]; [| |destruct i; discriminate Hr]; injection Hr as <-.
    + discriminate He.
    + simpl. auto.
Qed.

Lemma empty_generated (bm : BuildMode) : generated (bm := bm) all_literals empty_gi (prog forward empty_gi).
Proof. generate. apply forward_ok. Qed.

Lemma empty_consumes (bmg bm : BuildMode) : exists gi p (R : rust) ts st, generated (bm := bmg) all_literals gi p /\
  unambiguous_tokens R gi ts /\ first_complete (bm := bmg) (source (gi_rules gi)) /\
  (forall fuel, 60 <= fuel -> parse_fallible (E := unit) (SErr := UErr R) R (fun e => e) (of_list ts) fuel p = Ok (st, inr (ParseError R None))) /\
  forall w, ~ language (source (gi_rules gi)) w.
Proof.
  pose (ts := [TVariant "A" None; TVariant "B" None; TVariant "B" None] : list (tok demo)).
  assert (Hr : exists st, parse_fallible (bm := bm) (E := unit) (SErr := UErr demo) demo (fun e => e) (of_list ts) 60 (prog forward empty_gi) =
    Ok (st, inr (ParseError demo None)) /\ map fst (st_log demo st) = [] /\ s_calls demo (st_stream demo st) = 4).
  { apply (summary_ok (E := unit) (R := demo)). destruct bm; vm_compute; reflexivity. }
  destruct Hr as (st & Hr & _). exists empty_gi, (prog forward empty_gi), demo, ts, st.
  assert (He : gi_rules empty_gi = empty_rules) by (vm_compute; reflexivity).
  split; [apply empty_generated|].
  split; [apply unambiguous_ok; vm_compute; reflexivity|].
  split; [apply direct_first_complete; apply (direct_b_ok _ []); vm_compute; reflexivity|].
  split; [intros fuel Hf; eapply parse_more; eauto|].
  rewrite He. intros w (t & r & us & Hr0 & Hd & _). injection Hr0 as <-. apply (empty_no_X _ _ _ Hd). simpl. auto.
Qed.

(** A token matched by two terminals: [Num 1, Y] is a sentence, but read as
    [Num(1)] the first token leads nowhere. *)
Definition overlap_rules : list prule :=
  [ mk_prule "R" None [PNProduction "S"] None;
    mk_prule "S" None [PNProduction "A"; PNSymbol (variant "X")] None;
    mk_prule "S" None [PNProduction "B"; PNSymbol (variant "Y")] None;
    mk_prule "A" None [PNSymbol (mk_symbol "Num" (PGPattern "1"))] None;
    mk_prule "B" None [PNSymbol num] None ].
Definition overlap_gi : grammar_info := info (TTEnum [TIdent "Tok"]) [("R", None); ("S", None); ("A", None); ("B", None)] overlap_rules.
Definition overlap_p : program := prog forward overlap_gi.
Definition overlap_tokens : list (tok demo) := [Num 1; TVariant "Y" None].
Definition overlap_tree : dtree demo := Node 0 [Node 2 [Node 4 [Leaf (num, Num 1)]; Leaf (variant "Y", TVariant "Y" None)]].

Lemma overlap_generated (bm : BuildMode) : generated (bm := bm) all_literals overlap_gi overlap_p.
Proof. generate. apply forward_ok. Qed.

Lemma overlap_rejects (bmg : BuildMode) : exists gi p (R : rust) ts d st, generated (bm := bmg) all_literals gi p /\
  parses_tokens R gi ts d /\ first_complete (bm := bmg) (source (gi_rules gi)) /\
  forall fuel, 60 <= fuel -> exists o, parse_fallible (bm := false) (E := unit) (SErr := UErr R) R (fun e => e) (of_list ts) fuel p = Ok (st, inr (ParseError R o)).
Proof.
  assert (Hr : exists st, parse_fallible (bm := false) (E := unit) (SErr := UErr demo) demo (fun e => e) (of_list overlap_tokens) 60 overlap_p =
    Ok (st, inr (ParseError demo (Some (TVariant "Y" None)))) /\ map fst (st_log demo st) = [] /\ s_calls demo (st_stream demo st) = 2).
  { apply (summary_ok (E := unit) (R := demo)). vm_compute. reflexivity. }
  destruct Hr as (st & Hr & _). exists overlap_gi, overlap_p, demo, overlap_tokens, overlap_tree, st.
  split; [apply overlap_generated|].
  split; [apply (parses_ok demo overlap_gi overlap_tree); vm_compute; reflexivity|].
  split; [apply direct_first_complete; apply (direct_b_ok _ []); vm_compute; reflexivity|].
  intros fuel Hf. eexists. eapply parse_more; eauto.
Qed.

Lemma overlap_reported : exists st, parse_fallible (bm := true) (E := unit) (SErr := UErr demo) demo (fun e => e) (of_list overlap_tokens) 60 overlap_p =
    Ok (st, inr (OverlappingTokenMatchers demo (Num 1))) /\ map fst (st_log demo st) = [] /\ s_calls demo (st_stream demo st) = 1.
Proof. apply (summary_ok (E := unit) (R := demo)). vm_compute. reflexivity. Qed.

(** Two spellings of a character: nothing checks for overlaps, and which of two
    rules is applied depends on the order of a hash map. *)
Definition raw_rules : list prule :=
  [ mk_prule "R" None [PNProduction "S"] None;
    mk_prule "S" None [PNProduction "A"; PNSymbol (variant "'a'")] None;
    mk_prule "S" None [PNProduction "B"; PNSymbol (variant "'\x61'")] None;
    mk_prule "A" None [PNSymbol (variant "'q'")] None;
    mk_prule "B" None [PNSymbol (variant "'q'")] None ].
Definition raw_gi : grammar_info := info (TTRaw [TIdent "char"]) [("R", None); ("S", None); ("A", None); ("B", None)] raw_rules.
Definition raw_tokens : list (tok demo) := [TRaw "'q'"; TRaw "'a'"].

Lemma raw_generated (bm : BuildMode) : generated (bm := bm) all_literals raw_gi (prog forward raw_gi).
Proof. generate. apply forward_ok. Qed.

Lemma raw_generated_backward (bm : BuildMode) : generated (bm := bm) all_literals raw_gi (prog backward raw_gi).
Proof. generate. apply backward_ok. Qed.

Lemma raw_differs (bmg bm : BuildMode) : exists gi p1 p2 (R : rust) ts st1 st2 v1 v2,
  generated (bm := bmg) all_literals gi p1 /\ generated (bm := bmg) all_literals gi p2 /\
  parse_fallible (E := unit) (SErr := UErr R) R (fun e => e) (of_list ts) 60 p1 = Ok (st1, inl v1) /\
  parse_fallible (E := unit) (SErr := UErr R) R (fun e => e) (of_list ts) 60 p2 = Ok (st2, inl v2) /\
  map fst (st_log R st1) = [3; 1; 0] /\ map fst (st_log R st2) = [4; 2; 0].
Proof.
  assert (H1 : exists st, parse_fallible (bm := bm) (E := unit) (SErr := UErr demo) demo (fun e => e) (of_list raw_tokens) 60 (prog forward raw_gi) =
    Ok (st, inl RUnit) /\ map fst (st_log demo st) = [3; 1; 0] /\ s_calls demo (st_stream demo st) = 3).
  { apply (summary_ok (E := unit) (R := demo)). destruct bm; vm_compute; reflexivity. }
  assert (H2 : exists st, parse_fallible (bm := bm) (E := unit) (SErr := UErr demo) demo (fun e => e) (of_list raw_tokens) 60 (prog backward raw_gi) =
    Ok (st, inl RUnit) /\ map fst (st_log demo st) = [4; 2; 0] /\ s_calls demo (st_stream demo st) = 3).
  { apply (summary_ok (E := unit) (R := demo)). destruct bm; vm_compute; reflexivity. }
  destruct H1 as (st1 & H1 & L1 & _), H2 as (st2 & H2 & L2 & _).
  exists raw_gi, (prog forward raw_gi), (prog backward raw_gi), demo, raw_tokens, st1, st2, RUnit, RUnit.
  split; [apply raw_generated|]. split; [apply raw_generated_backward|]. auto.
Qed.

(** A parser that runs forever.  The FIRST sets of [A] and [B] are too small (the
    one lacks ['a'], the other ['\x61'], two spellings of one character), so that
    there is no conflict; at the character the parser expects both, and it begins
    an [A] on the one and a [B] on the other, in turn. *)
Definition loop_rules : list prule :=
  [ mk_prule "S" None [PNSymbol (variant "'s'"); PNProduction "A"] None;
    mk_prule "Z" None [PNEpsilon] None;
    mk_prule "W" None [PNEpsilon] None;
    mk_prule "A" None [PNProduction "X"; PNProduction "B"; PNSymbol (variant "'x'")] None;
    mk_prule "A" None [PNProduction "Z"; PNSymbol (variant "'\x61'")] None;
    mk_prule "B" None [PNProduction "Y"; PNProduction "A"; PNSymbol (variant "'y'")] None;
    mk_prule "B" None [PNProduction "W"; PNSymbol (variant "'a'")] None;
    mk_prule "X" None [PNProduction "C"] None;
    mk_prule "Y" None [PNProduction "D"] None;
    mk_prule "C" None [PNEpsilon] None;
    mk_prule "D" None [PNEpsilon] None ].
Definition loop_gi : grammar_info :=
  info (TTRaw [TIdent "char"]) (map (fun l => (l, None)) ["S"; "Z"; "W"; "A"; "B"; "X"; "Y"; "C"; "D"]) loop_rules.
(** Two of the maps are enumerated backwards. *)
Definition some_backward : hash_orders :=
  mk_orders (fun m => m) (fun _ s => s) (fun k m => match k with [1] | [7] => rev m | _ => m end) (fun _ m => m).
Definition loop_p : program := prog some_backward loop_gi.
Definition loop_tokens : list (tok demo) := [TRaw "'s'"; TRaw "'a'"].
Definition loop_tree : dtree demo :=
  Node 0 [Leaf (variant "'s'", TRaw "'s'"); Node 4 [Node 1 []; Leaf (variant "'\x61'", TRaw "'a'")]].

Lemma some_backward_ok : orders_ok some_backward.
Proof.
  constructor; simpl; auto. intros k m.
  repeat match goal with |- Permutation (match ?x with _ => _ end) _ => destruct x end; auto; symmetry; apply Permutation_rev.
Qed.

Lemma loop_generated (bm : BuildMode) : generated (bm := bm) all_literals loop_gi loop_p.
Proof. generate. apply some_backward_ok. Qed.

Inductive looping : list (nat * val demo) -> Prop :=
| lo_a rest : looping ((7, RUnit) :: rest)
| lo_b rest : looping ((5, RUnit) :: (7, RUnit) :: rest)
| lo_c rest : looping ((13, RUnit) :: rest)
| lo_d rest : looping ((9, RUnit) :: (13, RUnit) :: rest).

Lemma loop_next (bm : BuildMode) st : looping (st_stack demo st) -> st_stream demo st = mk_stream demo 2 (Some (inl (TRaw "'a'"))) ->
  exists st', loop_step (E := unit) (SErr := UErr demo) demo (fun e => e) (of_list loop_tokens) loop_p st = Ok (inl st') /\
    looping (st_stack demo st') /\ st_stream demo st' = st_stream demo st.
Proof.
  destruct st as [str stk log]. cbn [st_stack st_stream]. intros Hl ->.
  destruct Hl as [rest|rest|rest|rest]; destruct bm; (eexists; split; [vm_compute; reflexivity|split; [constructor|reflexivity]]).
Qed.

Lemma loop_forever (bm : BuildMode) fuel : forall st, looping (st_stack demo st) -> st_stream demo st = mk_stream demo 2 (Some (inl (TRaw "'a'"))) ->
  while_loop fuel (loop_step (E := unit) (SErr := UErr demo) demo (fun e => e) (of_list loop_tokens) loop_p) st = Diverge.
Proof.
  induction fuel as [|fuel IH]; intros st Hl Hs; [reflexivity|]. cbn [while_loop].
  destruct (loop_next bm st Hl Hs) as (st' & -> & Hl' & Hs'). cbn [bind]. apply IH; congruence.
Qed.

Fixpoint loop_iter {bm : BuildMode} (n : nat) (st : pstate (SErr := UErr demo) demo) : option (pstate (SErr := UErr demo) demo) :=
  match n with
  | 0 => Some st
  | S n => match loop_step (E := unit) (SErr := UErr demo) demo (fun e => e) (of_list loop_tokens) loop_p st with Ok (inl st') => loop_iter n st' | _ => None end
  end.

Lemma loop_iter_while (bm : BuildMode) n : forall st st' m, loop_iter n st = Some st' ->
  while_loop (n + m) (loop_step (E := unit) (SErr := UErr demo) demo (fun e => e) (of_list loop_tokens) loop_p) st =
  while_loop m (loop_step (E := unit) (SErr := UErr demo) demo (fun e => e) (of_list loop_tokens) loop_p) st'.
Proof.
  induction n as [|n IH]; intros st st' m Hi; cbn [loop_iter] in Hi; [injection Hi as <-; reflexivity|]. cbn [Nat.add while_loop].
  destruct (loop_step _ _ _ _ st) as [[st1|r]| | |]; try discriminate. cbn [bind]. apply IH. exact Hi.
Qed.

Definition loop_first : pstate (SErr := UErr demo) demo := state_new demo (of_list loop_tokens) (p_root loop_p, RUnit).
Definition loop_start : pstate (SErr := UErr demo) demo := match loop_iter (bm := true) 5 loop_first with Some st => st | None => loop_first end.

Lemma loop_diverges (bm : BuildMode) fuel :
  parse_fallible (E := unit) (SErr := UErr demo) demo (fun e => e) (of_list loop_tokens) fuel loop_p = Diverge.
Proof.
  assert (H5 : loop_iter 5 loop_first = Some loop_start) by (destruct bm; vm_compute; reflexivity).
  destruct (le_lt_dec 5 fuel) as [Hle|Hlt].
  - replace fuel with (5 + (fuel - 5)) by lia. unfold parse_fallible. fold loop_first. rewrite (loop_iter_while bm _ _ _ _ H5). apply loop_forever.
    + assert (Hs : exists rest, st_stack demo loop_start = (7, RUnit) :: rest) by (eexists; vm_compute; reflexivity).
      destruct Hs as (rest & ->). constructor.
    + vm_compute. reflexivity.
  - do 5 (destruct fuel as [|fuel]; [destruct bm; vm_compute; reflexivity|]). lia.
Qed.

Lemma runs_forever (bmg bm : BuildMode) : exists gi p (R : rust) ts d, generated (bm := bmg) all_literals gi p /\ parses_tokens R gi ts d /\
  forall fuel, parse_fallible (E := unit) (SErr := UErr R) R (fun e => e) (of_list ts) fuel p = Diverge.
Proof.
  exists loop_gi, loop_p, demo, loop_tokens, loop_tree. split; [apply loop_generated|].
  split; [apply (parses_ok demo loop_gi loop_tree); vm_compute; reflexivity|]. apply loop_diverges.
Qed.

(** Code generation that panics: a character as a variant of an enum; and, with
    debug assertions, a first rule that mentions its own label. *)
Definition char_rules : list prule := [ mk_prule "S" None [PNSymbol (variant "'a'")] None ].
Definition char_gi : grammar_info := info (TTEnum [TIdent "Tok"]) [("S", None)] char_rules.
Definition self_rules : list prule := [ mk_prule "S" None [PNSymbol (variant "A"); PNProduction "S"] None ].
Definition self_gi : grammar_info := info (TTEnum [TIdent "Tok"]) [("S", None)] self_rules.

Lemma char_panics (bm : BuildMode) : exists gi ho w, accepted gi /\ orders_ok ho /\ root_unused (gi_rules gi) /\
  generate_parser all_literals ho gi = Panic w.
Proof.
  exists char_gi, forward, "not a valid identifier".
  assert (Hb : build_info (bm := bm) (TTEnum [TIdent "Tok"]) [("S", None)] char_rules = Ok char_gi) by (destruct bm; vm_compute; reflexivity).
  split; [apply (build_info_accepted _ _ _ _ Hb); vm_compute; reflexivity|]. split; [apply forward_ok|]. split.
  - replace (gi_rules char_gi) with char_rules by (vm_compute; reflexivity). intros r Hr. injection Hr as <-. simpl. intros [H|[]]; discriminate.
  - destruct bm; vm_compute; reflexivity.
Qed.

Lemma self_panics : exists gi ho w, accepted (bm := true) gi /\ orders_ok ho /\ names_usable gi /\
  generate_parser (bm := true) all_literals ho gi = Panic w.
Proof.
  exists self_gi, forward, "next_states == [root_state]".
  assert (Hb : build_info (bm := true) (TTEnum [TIdent "Tok"]) [("S", None)] self_rules = Ok self_gi) by (vm_compute; reflexivity).
  split; [apply (build_info_accepted _ _ _ _ Hb); vm_compute; reflexivity|]. split; [apply forward_ok|]. split.
  - intros s Hs _. apply terminals_ok in Hs. replace (gi_rules self_gi) with self_rules in Hs by (vm_compute; reflexivity). simpl in Hs.
    destruct Hs as [<-|[]]. vm_compute. reflexivity.
  - vm_compute; reflexivity.
Qed.

Lemma calc_usable : names_usable calc /\ root_unused (gi_rules calc).
Proof.
  rewrite calc_rules_eq. split.
  - intros s Hs _. apply terminals_ok in Hs. rewrite calc_rules_eq in Hs. simpl in Hs. destruct Hs as [<-|[<-|[<-|[<-|[]]]]]; vm_compute; reflexivity.
  - intros r Hr. injection Hr as <-. simpl. intros [H|[]]; discriminate.
Qed.

Lemma calc_accepted (bm : BuildMode) : accepted calc.
Proof. destruct (calc_generated bm) as (_ & ho & H & _). exact H. Qed.

Lemma calc_code : pops calc_p 1 [mk_bind 2 [8] None; mk_bind 1 [5] None; mk_bind 0 [1] None] /\
  pushes_token calc_p 5 /\ pushes_value calc_p 3 [0] 2 /\ pushes_value calc_p 3 [5] 8.
Proof.
  assert (Hin : forall i c, nth_error (p_states calc_p) i = Some c -> In c (p_states calc_p)) by (intros; eapply nth_error_In; eauto).
  split; [|split; [|split]].
  - eexists. split; [apply (Hin 8); vm_compute; reflexivity|]. left. do 2 eexists. split; [left; reflexivity|]. auto.
  - do 3 eexists. split; [apply (Hin 1); vm_compute; reflexivity|]. left; reflexivity.
  - do 3 eexists. split; [apply (Hin 3); vm_compute; reflexivity|]. split; [left; reflexivity|]. split; [reflexivity|]. left; reflexivity.
  - do 3 eexists. split; [apply (Hin 3); vm_compute; reflexivity|]. split; [left; reflexivity|]. split; [reflexivity|]. right; left; reflexivity.
Qed.

(** The states of a run, one after the other. *)
Fixpoint after {bm : BuildMode} {SErr} (R : rust) (into : SErr -> UErr R) input p (n : nat) (st : pstate (SErr := SErr) R) : option (pstate R) :=
  match n with
  | 0 => Some st
  | S n' => match loop_step (E := unit) R into input p st with Ok (inl st') => after R into input p n' st' | _ => None end
  end.

Lemma after_visits {bm : BuildMode} {SErr} (R : rust) (into : SErr -> UErr R) input p n : forall st st', visits R into input p st ->
  after R into input p n st = Some st' -> visits R into input p st'.
Proof.
  induction n as [|n IH]; simpl; intros st st' Hv H; [injection H as <-; auto|].
  destruct (loop_step R into input p st) as [[st1|]| | |] eqn:Hs; try discriminate. eapply IH; [|exact H]. econstructor; eauto.
Qed.

Lemma calc_visits : exists st, visits (bm := true) demo no_error (of_list calc_tokens) calc_p st /\
  map snd (st_stack demo st) = [RTok (Num 3); RTok Plus; RUser 2; RUnit] /\ s_calls demo (st_stream demo st) = 4.
Proof.
  pose (o := after (bm := true) demo no_error (of_list calc_tokens) calc_p 5 (state_new demo (of_list calc_tokens) (p_root calc_p, RUnit))).
  assert (Ho : option_map (fun st => (map snd (st_stack demo st), s_calls demo (st_stream demo st))) o = Some ([RTok (Num 3); RTok Plus; RUser 2; RUnit], 4))
    by (vm_compute; reflexivity).
  destruct o as [st|] eqn:He; [|discriminate]. exists st. injection Ho as H1 H2. split; auto.
  eapply after_visits; [apply visits_start|exact He].
Qed.

(** The default constructor of [<A>: u32 => !;] uses a variable that nothing
    binds. *)
Definition unbound_rules : list prule :=
  [ mk_prule "S" None [PNProduction "A"; PNSymbol (variant "C")] None;
    mk_prule "A" u32 [PNEpsilon] None ].
Definition unbound_gi : grammar_info := info (TTEnum [TIdent "Tok"]) [("S", None); ("A", u32)] unbound_rules.

Lemma unbound_variable (bm : BuildMode) : exists gi ho p i bs c v, accepted gi /\ orders_ok ho /\ generate_parser all_literals ho gi = Ok p /\
  constructs p i bs c /\ In v (ctor_vars c) /\ ~ In v (map b_var bs).
Proof.
  exists unbound_gi, forward, (prog forward unbound_gi), 1, [], (CDefault 0), 0.
  assert (Hb : build_info (bm := bm) (TTEnum [TIdent "Tok"]) [("S", None); ("A", u32)] unbound_rules = Ok unbound_gi) by (destruct bm; vm_compute; reflexivity).
  split; [apply (build_info_accepted _ _ _ _ Hb); vm_compute; reflexivity|]. split; [apply forward_ok|].
  split; [destruct bm; vm_compute; reflexivity|]. split.
  - eexists. split; [apply (nth_error_In _ 0); vm_compute; reflexivity|]. left. do 2 eexists. split; [left; reflexivity|]. auto.
  - simpl. auto.
Qed.

Lemma calc_constructs : constructs calc_p 1 [mk_bind 2 [8] None; mk_bind 1 [5] None; mk_bind 0 [1] None] (CUser [CVar 0; CToken (TPunct "+" Alone); CVar 2]).
Proof. eexists. split; [apply (nth_error_In _ 8); vm_compute; reflexivity|]. left. do 2 eexists. split; [left; reflexivity|]. auto. Qed.

(** A constructor body with nested references. *)
Definition body_nodes : list pnode := [PNProduction "E"; PNSymbol plus; PNProduction "N"; PNProduction "E"; PNEpsilon].
Definition body_tokens : list ttree :=
  [TIdent "f"; TGroup Parenthesis [hash; TLiteral "0"; TPunct "," Alone; TGroup Bracket [hash; TIdent "N"; TPunct "," Alone; hash; TLiteral "3"]]; TPunct "#" Joint; TPunct "?" Alone].

Lemma body_substituted : substituted body_nodes body_tokens
  [CToken (TIdent "f"); CGroup Parenthesis [CVar 0; CToken (TPunct "," Alone); CGroup Bracket [CVar 2; CToken (TPunct "," Alone); CVar 3]];
   CToken (TPunct "#" Joint); CToken (TPunct "?" Alone)].
Proof. apply rewrite_ok. vm_compute. reflexivity. Qed.

Lemma body_bad : bad_reference body_nodes [TGroup Brace [hash; TIdent "N"; hash; TIdent "E"]] (AmbiguousReference "E") /\
  bad_reference body_nodes [hash; TIdent "X"] (UnknownReference "X") /\
  bad_reference body_nodes [hash; TLiteral "5"] (IndexOutOfRange 5) /\
  bad_reference body_nodes [hash; TLiteral "04"] (IndexOfEpsilon 4) /\
  bad_reference body_nodes [hash; TLiteral "1u8"] (NotAnIndex "1u8") /\
  bad_reference body_nodes [TIdent "x"; hash; TPunct "." Alone; TIdent "y"] DanglingNumberSign.
Proof. repeat split; apply rewrite_err; vm_compute; reflexivity. Qed.
