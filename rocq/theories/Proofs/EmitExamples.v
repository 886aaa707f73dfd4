(** Running the code emitted for a concrete grammar. *)
From Coq Require Import Arith Bool String Ascii NArith List Lia.
From Verif Require Import Base.Prelude Spec.Grammar Spec.Values.
From Verif Require Import Model.TokenTree Model.Terminal Model.Constructor Model.CodeGen Model.Runtime Model.Rust Model.Emit.
From Verif Require Import Spec.EmittedCode Spec.EmittedNames Proofs.GenFinal Proofs.GenMain Proofs.GenExamples Proofs.EmitMain.
Import ListNotations.
Open Scope string_scope.
Open Scope list_scope.

Definition demo_value := rvalue string nat nat string string.

(** Bodies are sums: of the variables they name (any variable that is no value of
    the grammar counts as one), unless the sum is too big. *)
Definition of_variable (v : option demo_value) : nat :=
  match v with
  | Some (VVal v) => number v (fun u => u)
  | Some _ => 1
  | None => 0
  end.
Fixpoint total (e : string -> option demo_value) (t : ttree) : nat :=
  match t with
  | TGroup _ ts => list_sum (map (total e) ts)
  | TIdent x => of_variable (e x)
  | _ => 0
  end.
Definition sum_body (_ : nat) (ts : list ttree) (e : string -> option demo_value) : rval string nat nat + string :=
  let s := list_sum (map (total e) ts) in if Nat.ltb 9 s then inr "overflow" else inl (RUser s).

Definition code_demo : rust := mk_rust string nat nat string string_dec (literal_value demo) (pat_matches demo)
  (fun i body vars => sum_body i (map body_text body) (arguments demo string vars)) (default_ctor demo).

Lemma demo_describes : describes code_demo string sum_body.
Proof.
  intros i body vars. cbn [user_ctor code_demo]. f_equal.
Qed.

Lemma sum_ext {A} (f g : A -> nat) l : (forall a, In a l -> f a = g a) -> list_sum (map f l) = list_sum (map g l).
Proof. intros H. f_equal. now apply map_ext_in. Qed.

Lemma total_ext e e' : forall t, (forall x, mentions x t -> e x = e' x) -> total e t = total e' t.
Proof.
  fix IH 1. intros t H. destruct t; cbn [total]; try reflexivity.
  - assert (Hl : forall t, In t ts -> forall x, mentions x t -> e x = e' x) by (intros t Ht x Hx; apply H; econstructor; eassumption).
    clear H. induction ts as [|t ts IHl]; [reflexivity|]. cbn. f_equal.
    + apply IH. apply Hl. now left.
    + apply IHl. intros t' Ht'. apply Hl. now right.
  - rewrite (H name); [reflexivity|constructor].
Qed.

Lemma demo_depends : depends_on_named code_demo string sum_body.
Proof.
  intros i ts e e' H. unfold sum_body. erewrite (sum_ext (total e) (total e')); [reflexivity|].
  intros t Ht. apply total_ext. intros x Hx. exact (H x t Ht Hx).
Qed.

(** Checking hygiene. *)
Fixpoint substring_b (x s : string) : bool :=
  String.prefix x s || match s with EmptyString => false | String _ s' => substring_b x s' end.
Fixpoint mentions_b (x : string) (t : ttree) : bool :=
  match t with
  | TGroup _ ts => existsb (mentions_b x) ts
  | TIdent y => String.eqb x y
  | TLiteral l => substring_b x l
  | TPunct _ _ => false
  end.

Lemma prefix_app x b : String.prefix x (x ++ b)%string = true.
Proof. induction x as [|c x IH]; [now destruct b|]. cbn. destruct (ascii_dec c c) as [_|n]; [exact IH|congruence]. Qed.
Lemma substring_app x a b : substring_b x (a ++ x ++ b)%string = true.
Proof.
  induction a as [|c a IH].
  - cbn [String.append]. destruct (x ++ b)%string as [|c s] eqn:He; cbn [substring_b]; rewrite <- He, prefix_app; reflexivity.
  - cbn. rewrite IH. apply orb_true_r.
Qed.
Lemma mentions_b_ok x t : mentions x t -> mentions_b x t = true.
Proof.
  induction 1 as [|a b|d ts t Hi H IH]; cbn [mentions_b].
  - apply String.eqb_refl.
  - apply substring_app.
  - apply existsb_exists. eauto.
Qed.

Definition hygienic_b (rules : list prule) : bool :=
  forallb (fun r => match pr_block r with Some (_, ts) => forallb (fun x => negb (existsb (mentions_b x) ts)) internal_names | None => true end) rules.
Lemma hygienic_b_ok rules : hygienic_b rules = true -> hygienic_rules rules.
Proof.
  unfold hygienic_b. rewrite forallb_forall. intros H r d ts x t Hr Hb Hx Ht Hm. specialize (H r Hr). rewrite Hb, forallb_forall in H. specialize (H x Hx).
  apply negb_true_iff in H. assert (existsb (mentions_b x) ts = true) by (apply existsb_exists; exists t; split; auto using mentions_b_ok). congruence.
Qed.

Definition no_error' (e : string) : UErr code_demo := e.
Definition run_code (bm : BuildMode) (gi : grammar_info) (p : program) (input : nat -> option (tok code_demo + string)) :=
  run_emitted (bm := bm) (E := unit) code_demo no_error' input sum_body 60
    (emit Private "Calc" NoErrorType (gi_terminal_type gi) u32 p).
Definition outcome_of {E} (m : result (E := E) (SErr := string) code_demo) : option demo_value :=
  match m with Ok (_, FVal _ v) => Some v | _ => None end.

Lemma calc_hygienic : hygienic_rules (gi_rules calc).
Proof. apply hygienic_b_ok. vm_compute. reflexivity. Qed.

Lemma calc_code_runs (bm : BuildMode) :
  outcome_of (run_code bm calc calc_p (of_list calc_tokens)) = Some (VCon ["Ok"] [VVal (RUser 5)]) /\
  outcome_of (run_code bm calc calc_p (of_list [Num 7; Plus; Num 8])) = Some (VCon ["Err"] [VCon (p_error "UserError") [VUErr "overflow"]]) /\
  outcome_of (run_code bm calc calc_p (of_list [Num 7; Plus])) = Some (VCon ["Err"] [VCon (p_error "ParseError") [VCon ["None"] []]]) /\
  outcome_of (run_code bm calc calc_p (fun n => nth_error [inl (Num 7); inr "disk"] n)) = Some (VCon ["Err"] [VCon (p_error "UserError") [VUErr "disk"]]).
Proof. destruct bm; vm_compute; auto. Qed.

(** A constructor that names a variable of the generated code. *)
Definition peek_rules : list prule :=
  [ mk_prule "S" u32 [PNProduction "M"; PNSymbol plus] (block [hash; TIdent "M"]);
    mk_prule "M" u32 [PNSymbol num] (block [TIdent "__peeked_val"; TPunct "." Alone; TIdent "is_some"; TGroup Parenthesis []; TPunct "+" Alone; hash; TLiteral "0"]) ].
Definition peek_info : grammar_info := info (TTEnum [TIdent "Tok"]) [("S", u32); ("M", u32)] peek_rules.
Definition peek_p : program := prog forward peek_info.
Lemma peek_generated (bm : BuildMode) : generated (bm := bm) all_literals peek_info peek_p.
Proof. generate. apply forward_ok. Qed.

Lemma peek_differs (bm : BuildMode) :
  summary (parse_fallible (bm := bm) (E := unit) code_demo no_error' (of_list [Num 2; Plus]) 60 peek_p) = Some (inl (RUser 2), [1; 0], 3) /\
  outcome_of (run_code bm peek_info peek_p (of_list [Num 2; Plus])) = Some (VCon ["Ok"] [VVal (RUser 3)]).
Proof. destruct bm; vm_compute; auto. Qed.

Lemma not_same_run : forall bm : BuildMode, exists gi p (R : rust) bv (into : string -> UErr R) input fuel vis name ety rt,
  generated (bm := bm) all_literals gi p /\ describes R string bv /\ depends_on_named R string bv /\
  ~ same_run (E := unit) (parse_fallible (bm := bm) R into input fuel p)
      (run_emitted (bm := bm) R into input bv fuel (emit vis name ety (gi_terminal_type gi) rt p)).
Proof.
  intros bm. exists peek_info, peek_p, code_demo, sum_body, no_error', (of_list [Num 2; Plus]), 60, Private, "Calc", NoErrorType, u32.
  split; [apply peek_generated|]. split; [exact demo_describes|]. split; [exact demo_depends|]. intros Hs.
  destruct (peek_differs bm) as (H1 & H2). apply (summary_ok (R := code_demo)) in H1 as (st & H1 & _). rewrite H1 in Hs. destruct Hs as (stk & Hs).
  unfold run_code in H2. rewrite Hs in H2. discriminate H2.
Qed.

(** The tree of the tokens of [calc]. *)
Lemma calc_tree_code : parses_tokens code_demo calc calc_tokens (calc_tree 2 3) /\ unambiguous_tokens code_demo calc calc_tokens /\
  snd (Values.eval code_demo calc (calc_tree 2 3)) = inl (RUser 5).
Proof.
  split; [apply (parses_ok code_demo calc (calc_tree 2 3)); vm_compute; reflexivity|].
  split; [apply unambiguous_ok; vm_compute; reflexivity|]. vm_compute. reflexivity.
Qed.

(** A type named like a type parameter, and a constructor that calls a function
    named like a state function. *)
Definition calls_rules : list prule :=
  [ mk_prule "S" u32 [PNSymbol num] (block [TIdent "parse_s0"; TGroup Parenthesis [hash; TLiteral "0"]]) ].
Definition calls_info : grammar_info := info (TTEnum [TIdent "Tok"]) [("S", u32)] calls_rules.
Definition calls_p : program := prog forward calls_info.
Lemma calls_generated (bm : BuildMode) : generated (bm := bm) all_literals calls_info calls_p.
Proof. generate. apply forward_ok. Qed.

Definition calls_em : emitted := emit Private "Calc" (Custom [TIdent "E"]) (TTEnum [TIdent "Tok"]) u32 calls_p.

Lemma type_captured : forall bm : BuildMode, exists gi p vis name ety rt f x,
  generated (bm := bm) all_literals gi p /\ In f (em_fns (emit vis name ety (gi_terminal_type gi) rt p)) /\
  error_type_tokens ety = [TIdent x] /\ captures_type f x.
Proof.
  intros bm. exists calls_info, calls_p, Private, "Calc", (Custom [TIdent "E"]), u32. eexists. exists "E".
  split; [apply calls_generated|]. split; [left; reflexivity|]. split; [reflexivity|]. split; [vm_compute; tauto|].
  exists [TIdent "E"]. split; [vm_compute; tauto|now left].
Qed.

Lemma function_captured : forall bm : BuildMode, exists gi p vis name ety rt f i vs ts f',
  let em := emit vis name ety (gi_terminal_type gi) rt p in
  generated (bm := bm) all_literals gi p /\ In f (em_fns em) /\ In (i, vs, ts) (bodies [f_param f] (f_body f)) /\
  In f' (em_fns em) /\ In (f_name f') (flat_map idents ts).
Proof.
  intros bm. exists calls_info, calls_p, Private, "Calc", (Custom [TIdent "E"]), u32.
  destruct (nth_error (em_fns calls_em) 1) as [f|] eqn:Hf; [|discriminate].
  destruct (bodies [f_param f] (f_body f)) as [|[[i vs] ts] rest] eqn:Hb; [vm_compute in Hf; injection Hf as <-; discriminate Hb|].
  exists f, i, vs, ts, (emit_function "Calc" [TIdent "Tok"] (Custom [TIdent "E"]) [TIdent "u32"] 0 (nth 0 (p_states calls_p) (mk_state_code None [] [] None))).
  split; [apply calls_generated|]. split; [exact (nth_error_In _ _ Hf)|]. split; [rewrite Hb; now left|].
  split; [left; vm_compute; reflexivity|]. vm_compute in Hf. injection Hf as <-. vm_compute in Hb. injection Hb as <- <- <- _. vm_compute. tauto.
Qed.

(** The names in a state function of [calc]. *)
Definition calc_em : emitted := emit Public "Calc" NoErrorType (gi_terminal_type calc) u32 calc_p.
Lemma calc_scopes :
  map (fun b => (fst (fst b), snd (fst b))) (flat_map (fun f => bodies [f_param f] (f_body f)) (em_fns calc_em)) =
  [(2, ["__v0"; "__peeked_val"; "__parser_generator_state"]);
   (3, ["__v0"; "__peeked_val"; "__parser_generator_state"]);
   (4, ["__v0"; "__v1"; "__peeked_val"; "__parser_generator_state"]);
   (1, ["__v0"; "__v1"; "__v2"; "__peeked_val"; "__parser_generator_state"])] /\
  map fst (e_variants (em_enum calc_em)) = ["S0"; "S1"; "S2"; "S3"; "S4"; "S5"; "S6"; "S7"; "S8"] /\
  map f_name (em_fns calc_em) = ["parse_s0"; "parse_s1"; "parse_s2"; "parse_s3"; "parse_s4"; "parse_s5"; "parse_s6"; "parse_s7"; "parse_s8"].
Proof. vm_compute. auto. Qed.

Lemma calc_free :
  map (fun f => nodup string_dec (free_vars (f_body f))) (em_fns calc_em) = repeat ["__parser_generator_state"] 9 /\
  nodup string_dec (free_vars (em_body calc_em)) = ["__parser_generator_input_stream"].
Proof. vm_compute. auto. Qed.
