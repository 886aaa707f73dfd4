(** Code that follows the rules of ownership, and some that does not. *)
From Coq Require Import Arith Bool String Ascii NArith List Lia.
From Verif Require Import Base.Prelude Spec.Grammar Model.Error Model.LRTable.
From Verif Require Import Model.TokenTree Model.Terminal Model.Constructor Model.CodeGen Model.Runtime Model.Symbol Model.FrontEnd.
From Verif Require Import Model.Diagnostics Model.Rust Model.Emit Model.Expand.
From Verif Require Import Spec.Values Spec.Substitution Spec.Macro Spec.Diagnostics Spec.EmittedCode Spec.EmittedNames Spec.Expansion Spec.Typing Spec.Ownership.
From Verif Require Import Proofs.Substitution Proofs.MacroMain Proofs.GenExamples Proofs.MacroExamples Proofs.DiagnosticsExamples Proofs.EmitExamples Proofs.ExpandExamples Proofs.Typing Proofs.TypingExamples.
Import ListNotations.
Open Scope string_scope.
Open Scope list_scope.

Lemma calc_decls_hygienic : hygienic_rules (d_rules calc_decls).
Proof. apply hygienic_b_ok. vm_compute. reflexivity. Qed.

(** *** The rules

    of a function with a parser state: what can and cannot be written. *)
Definition st : expr := EVar "st".
Definition pop : expr := EMethod st "pop_state" [].
Definition push (e : expr) : expr := EMethod st "push" [e].
Definition peek : expr := EMethod (EMethod st "stream" []) "peek_next" [].
Definition takes_state (e : expr) : Prop := owns calc_user calc_item (control_result calc_item) [("st", TyRef true TyParserState)] NoLoan [] e.

Ltac inv H := inversion H; subst; clear H.
Ltac types := repeat match goal with
  | H : type_of _ _ = Some _ |- _ => cbn in H; injection H as <-
  | H : typed _ _ _ _ (EVar _) _ |- _ => inv H
  | H : typed _ _ _ _ (EMethod _ _ _) _ |- _ => inv H
  | H : typed_all _ _ _ _ (_ :: _) _ |- _ => inv H
  | H : typed_all _ _ _ _ [] _ |- _ => inv H
  | H : method_type _ _ _ _ _ _ |- _ => inv H
  end.
(* nothing is written while a reference can be used *)
Ltac lent y := match goal with
  | H : writable _ _ _ _ |- _ => let H1 := fresh in let H2 := fresh in destruct H as [H1 H2];
      first [discriminate H1 | specialize (H2 y _ ltac:(vm_compute; tauto) ltac:(discriminate) eq_refl); discriminate H2]
  end.
(* a variable is not moved if it is used later *)
Ltac used_later y := match goal with
  | H : usable _ _ _ _ _ |- _ => let H1 := fresh in let H2 := fresh in destruct H as [H1|[H1 H2]];
      [discriminate H1|first [exfalso; apply H1; vm_compute; tauto | specialize (H2 eq_refl); lent y]]
  end.

Lemma pop_typed ret u em : typed u em ret [("st", TyRef true TyParserState)] pop TyStates.
Proof. eapply ty_method; [apply ty_var; reflexivity|apply me_pop_state; constructor|constructor]. Qed.

(* let a = st.pop_state(); st.push(a); *)
Lemma move_once : takes_state (ELet "a" pop (push (EVar "a"))).
Proof.
  eapply ow_let with (t := TyStates) (t' := TyWritten unit_tokens); [| |intros []| | |reflexivity].
  - eapply ow_method_mut; [reflexivity|reflexivity| |constructor|constructor|intros t []]. split; [reflexivity|]. intros y t Hy Hne. cbn in Hy. destruct Hy as [<-|[]]. contradiction.
  - apply pop_typed.
  - eapply ow_method_mut with (ts := [TyStates]); [reflexivity|reflexivity| | |repeat constructor|intros t [<-|[]]; reflexivity].
    + split; [reflexivity|intros y t []].
    + econstructor; [|apply ty_var; reflexivity|constructor]. eapply ow_var; [reflexivity|]. right. split; [vm_compute; intuition discriminate|discriminate].
  - eapply ty_method; [apply ty_var; reflexivity|apply me_push; constructor|repeat constructor].
Qed.

(* invert what is known of an expression, and of its types *)
Ltac open := repeat first
  [ progress types
  | match goal with
    | H : typed _ _ _ _ (ELet _ _ _) _ |- _ => clear H
    | H : typed _ _ _ _ (ESeq _ _) _ |- _ => clear H
    | H : typed _ _ _ _ (ELoop _) _ |- _ => clear H
    | H : typed _ _ _ _ (EMatch _ _) _ |- _ => clear H
    | H : owns _ _ _ _ _ _ _ |- _ => inv H; try discriminate
    | H : owns_all _ _ _ _ _ _ (_ :: _) |- _ => inv H
    end ].
Ltac rejected y := let H := fresh in intros H; unfold takes_state, push, pop, peek, st in H; open; first [lent y | used_later y].

(* let a = st.pop_state(); st.push(a); st.push(a) *)
Lemma move_twice : ~ takes_state (ELet "a" pop (ESeq (push (EVar "a")) (push (EVar "a")))).
Proof. rejected "a". Qed.

(* let a = st.pop_state(); loop { st.push(a) } *)
Lemma move_in_loop : ~ takes_state (ELet "a" pop (ELoop (push (EVar "a")))).
Proof. rejected "a". Qed.

(* let p = st.stream().peek_next(); let a = st.pop_state(); match p { _ => () } *)
Lemma pop_while_peeked : ~ takes_state (ELet "p" peek (ELet "a" pop (EMatch (EVar "p") [(PtWild, EUnit)]))).
Proof. rejected "p". Qed.

(* let s = st.stream_mut(); let a = st.pop_state(); s.advance() *)
Lemma pop_while_advancing : ~ takes_state (ELet "s" (EMethod st "stream_mut" []) (ELet "a" pop (EMethod (EVar "s") "advance" []))).
Proof. rejected "s". Qed.

(* st.push(st.pop_state()) *)
Lemma pop_in_argument : ~ takes_state (push pop).
Proof. rejected "st". Qed.

(** *** A constructor that looks at the peeked token

    name: Calc; enum_terminal: Tok; <S>: u32 => Num(..) { __peeked_val };

    where the user has a constant of this name. *)
Definition peeking_input : list ttree :=
  calc_head ++ ref "S" ++ colon :: TIdent "u32" :: arrow ++ [TIdent "Num"; TGroup Parenthesis [TPunct "." Joint; TPunct "." Alone]; TGroup Brace [TIdent "__peeked_val"]; semi].
Definition peeking_decls : declarations :=
  mk_declarations "Calc" (TTEnum tok_ty) None [("S", Some u32_ty)]
    [mk_prule "S" (Some u32_ty) [PNSymbol (mk_symbol "Num" PGWildcard)] (Some (Brace, [TIdent "__peeked_val"]))].
Definition peeking_user : user_code :=
  mk_user [("Num", Some u32_ty)] (fun _ _ => False) (fun _ _ => False) (fun _ => True) (fun ty => ty = tok_ty \/ ty = u32_ty) (fun ty => ty = tok_ty) (fun ty => ty = no_error_type)
    (fun ty ty' => ty = ty') (fun _ ts _ ty => ts = [TIdent "__peeked_val"] /\ ty = u32_ty).
Definition peeking_item : emitted := Eval vm_compute in item_or (item_of true peeking_input).
Lemma peeking_expands (bm : BuildMode) : expand bm peeking_input = Ok (Item place peeking_item).
Proof. destruct bm; vm_compute; reflexivity. Qed.
Lemma peeking_declared : declared peeking_input peeking_decls.
Proof. split; [apply placed_spaced; vm_compute; reflexivity|]. rewrite placed_trees. apply read_sound; [apply well_spaced_ok|]; vm_compute; reflexivity. Qed.

Lemma peeking_fits : user_part_fits peeking_user peeking_decls.
Proof.
  constructor.
  - split; [now left|reflexivity].
  - reflexivity.
  - cbn. repeat constructor; cbn; intuition discriminate.
  - intros s Hs. apply terminals_ok in Hs. vm_compute in Hs. rule_cases Hs. exists u32_ty. split; [now left|now right].
  - intros r nd ty ty' own Hr Hb. cbn [d_rules peeking_decls] in Hr. rule_cases Hr. discriminate Hb.
  - intros i r dl ts body ty G Hi Hb Hs (o & Ho & ->) HG. apply rewrite_ok in Hs. apply nth_error_In in Hi. cbn [d_rules peeking_decls] in Hi.
    rule_cases Hi; cbn [pr_block pr_nodes pr_name] in *. injection Hb as <- <-. vm_compute in Hs. injection Hs as <-. vm_compute in Ho. injection Ho as <-. split; reflexivity.
Qed.

(** What is peeked is a reference. *)
Lemma peek_lends u em ret G t : typed u em ret G emit_peek_next t -> loan_of t <> NoLoan.
Proof.
  intros H. inv H. match goal with H : typed _ _ _ _ (EMethod _ "transpose" _) _ |- _ => inv H end. types.
  match goal with H : typed _ _ _ _ (EMapOption _ _ _) _ |- _ => inv H end. match goal with H : typed _ _ _ _ (EMatch _ _) _ |- _ => inv H end.
  match goal with H : typed_arms _ _ _ _ _ _ _ |- _ => inv H end. match goal with H : typed _ _ _ _ (ECon ["Ok"] _) _ |- _ => inv H end.
  match goal with H : constructs _ ["Ok"] _ _ |- _ => inv H end. types. discriminate.
Qed.

Lemma peeking_fails : ~ well_owned peeking_user peeking_item.
Proof.
  intros W. pose proof (wo_functions _ _ W _ (or_intror (or_introl eq_refl))) as H. cbn [f_param f_body] in H. clear W.
  inv H.
  match goal with H : typed _ _ _ _ (ETry _) ?t |- _ => assert (Hl : loan_of t <> NoLoan) by (eapply peek_lends; exact H); clear H end.
  match goal with H : owns _ _ _ _ _ _ (ETry _) |- _ => clear H end.
  match goal with H : owns _ _ _ _ _ _ (EMatch _ _) |- _ => inv H end.
  match goal with H : owns_arms _ _ _ _ _ _ _ _ |- _ => inv H end.
  match goal with H : matches_type _ _ _ _ _ _ ?bs |- _ =>
    assert (Hbs : bs = []) by (pose proof (proj1 (binders_typed _ _) _ _ _ _ _ H) as Hx; destruct bs as [|b bs]; [reflexivity|destruct (Hx (fst b) (or_introl eq_refl))]) end.
  subst. cbn [app] in *.
  match goal with H : owns _ _ _ _ _ _ (ELet "__v0" _ _) |- _ => inv H end.
  match goal with H : owns _ _ _ _ _ _ (EMatch _ _) |- _ => inv H end.
  match goal with H : owns _ _ _ _ _ _ (EMethod _ "pop_state" _) |- _ => inv H; try discriminate end.
  - match goal with H : writable _ _ _ _ |- _ => destruct H as [_ H]; specialize (H "__peeked_val" _ ltac:(vm_compute; tauto) ltac:(discriminate) eq_refl); contradiction end.
  - match goal with H : owns _ _ _ _ _ _ (EVar "__parser_generator_state") |- _ => inv H end.
    match goal with H : usable _ _ _ _ _ |- _ => destruct H as [H|[H _]] end.
    + match goal with H : type_of _ _ = Some _ |- _ => cbn in H; injection H as <- end. discriminate.
    + match goal with H : ~ In _ _ |- _ => apply H; vm_compute; tauto end.
Qed.

Lemma peeking_fails_at : forall bm : BuildMode, exists ts em d u,
  well_spaced (trees ts) /\ reads_as show (trees ts) d /\ defaults_bound (d_rules d) /\
  grammar (bm := bm) place whole join_places show no_lex all_literals forward 50 ts = Ok (Item place em) /\
  user_part_fits u d /\ single_patterns u d /\ plain_token_type d /\ well_typed u em /\ ~ well_owned u em.
Proof.
  intros bm. exists (placed 1 peeking_input), peeking_item, peeking_decls, peeking_user. destruct peeking_declared as (A & B).
  assert (C : defaults_bound (d_rules peeking_decls)) by (apply bound_b_ok; vm_compute; reflexivity).
  assert (D : single_patterns peeking_user peeking_decls) by no_pattern. assert (F : plain_token_type peeking_decls) by repeat constructor.
  repeat (split; [first [assumption|exact (peeking_expands bm)|exact peeking_fits]|]). split; [|exact peeking_fails].
  eapply (macros_typed whole join_places show no_lex all_literals forward 50); eauto using peeking_fits.
  - apply forward_ok.
  - left. exact (peeking_expands bm).
  - unused.
Qed.
