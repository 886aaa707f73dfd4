(** Concrete inputs of [grammar!]. *)
From Coq Require Import Arith Bool String Ascii List Lia.
From Verif Require Import Base.Prelude Spec.Grammar Spec.Validity Spec.Nullable Spec.LR1 Spec.Observers Model.Error.
From Verif Require Import Model.IndexedGrammar Model.LRTable Model.TokenTree Model.Terminal Model.Constructor Model.CodeGen Model.Runtime.
From Verif Require Import Model.Symbol Model.FrontEnd Spec.Values Spec.Macro Spec.MacroPanic.
From Verif Require Import Proofs.GenExamples Proofs.Macro Proofs.MacroTotal Proofs.MacroMain.
Import ListNotations.
Open Scope string_scope.
Open Scope list_scope.

(** A [print]: every token followed by a space. *)
Fixpoint show_tree (t : ttree) : string :=
  match t with
  | TGroup d ts =>
      (match d with Parenthesis => "( " | Brace => "{ " | Bracket => "[ " | NoDelimiter => "" end ++
       fold_right (fun t s => show_tree t ++ s) "" ts ++
       match d with Parenthesis => ") " | Brace => "} " | Bracket => "] " | NoDelimiter => "" end)%string
  | TPunct c _ => String c " "
  | TIdent n => (n ++ " ")%string
  | TLiteral t => (t ++ " ")%string
  end.
Definition show (ts : list ttree) : string := fold_right (fun t s => (show_tree t ++ s)%string) "" ts.

Fixpoint well_spaced_b (ts : list ttree) : bool :=
  match ts with
  | TPunct _ Joint :: ((TPunct _ _ :: _) as ts') => well_spaced_b ts'
  | TPunct _ Joint :: _ => false
  | _ :: ts' => well_spaced_b ts'
  | [] => true
  end.

Lemma well_spaced_ok ts : well_spaced_b ts = true -> well_spaced ts.
Proof.
  induction ts as [|t ts IH]; intros H l c r E; [now destruct l|].
  destruct l as [|t' l].
  - injection E as -> ->. simpl in H. destruct r as [|[d us|c' sp|n|u] r]; try discriminate. eauto.
  - injection E as -> ->. apply (IH) with (l := l) (c := c); auto. clear IH.
    destruct t' as [d us|c' [|]|n|u]; auto. simpl in H. destruct (l ++ TPunct c Joint :: r) as [|[| | |] q]; try discriminate; auto.
Qed.

Definition semi := TPunct ";" Alone.
Definition colon := TPunct ":" Alone.
Definition bar := TPunct "|" Alone.
Definition arrow := [TPunct "=" Joint; TPunct ">" Alone].
Definition ref (n : string) := [TPunct "<" Alone; TIdent n; TPunct ">" Alone].
Definition option_of (k : string) (ts : list ttree) := TIdent k :: colon :: ts ++ [semi].

Definition calc_head : list ttree := option_of "name" [TIdent "Calc"] ++ option_of "enum_terminal" [TIdent "Tok"].

(** name: Calc; enum_terminal: Tok; error_type: std::E;
    <S>: u32 => <E>;
    <E>: u32 => <E> Plus <N> { #0 + #N } | <N> { #N };
    <N>: u32 => Num(..) { #0 } | Zero <O> { 0 };
    <O> => ! | Dot; *)
Definition calc_input : list ttree :=
  calc_head ++ option_of "error_type" [TIdent "std"; TPunct ":" Joint; TPunct ":" Alone; TIdent "E"] ++
  ref "S" ++ colon :: TIdent "u32" :: arrow ++ ref "E" ++ [semi] ++
  ref "E" ++ colon :: TIdent "u32" :: arrow ++ ref "E" ++ [TIdent "Plus"] ++ ref "N" ++
    [TGroup Brace [hash; TLiteral "0"; TPunct "+" Alone; hash; TIdent "N"]; bar] ++ ref "N" ++ [TGroup Brace [hash; TIdent "N"]; semi] ++
  ref "N" ++ colon :: TIdent "u32" :: arrow ++ [TIdent "Num"; TGroup Parenthesis [TPunct "." Joint; TPunct "." Alone]; TGroup Brace [hash; TLiteral "0"]; bar; TIdent "Zero"] ++
    ref "O" ++ [TGroup Brace [TLiteral "0"]; semi] ++
  ref "O" ++ arrow ++ [TPunct "!" Alone; bar; TIdent "Dot"; semi].

Definition calc_decls : declarations :=
  mk_declarations "Calc" (TTEnum [TIdent "Tok"]) (Some [TIdent "std"; TPunct ":" Joint; TPunct ":" Alone; TIdent "E"]) calc_types calc_rules.

Lemma calc_read : parse_declarations show (tokenize_from_stream calc_input) = Ok calc_decls.
Proof. vm_compute. reflexivity. Qed.

Lemma calc_reads : well_spaced calc_input /\ reads_as show calc_input calc_decls.
Proof.
  assert (W : well_spaced calc_input) by (apply well_spaced_ok; vm_compute; reflexivity).
  split; auto. apply read_sound; [exact W|exact calc_read].
Qed.

Lemma calc_grammar (bm : BuildMode) : parse_grammar show 50 (tokenize_from_stream calc_input) =
  Ok ("Calc", Some [TIdent "std"; TPunct ":" Joint; TPunct ":" Alone; TIdent "E"], calc).
Proof. destruct bm; vm_compute; reflexivity. Qed.

Lemma calc_builds (bm : BuildMode) : build_grammar show all_literals forward 50 calc_input = Ok calc_p.
Proof. destruct bm; vm_compute; reflexivity. Qed.

Lemma calc_bound : defaults_bound (d_rules calc_decls).
Proof. apply bound_b_ok. vm_compute. reflexivity. Qed.

(** A label with two types, then anything. *)
Definition two_types : list ttree :=
  calc_head ++ ref "S" ++ colon :: TIdent "u32" :: arrow ++ ref "N" ++ [semi] ++
  ref "N" ++ colon :: TIdent "u32" :: arrow ++ [TIdent "A"; semi] ++
  ref "N" ++ colon :: TIdent "u64" :: arrow ++ [TPunct "&" Alone].

Lemma two_types_reported : well_spaced two_types /\ parse_declarations show (tokenize_from_stream two_types) = Err DifferentReturnTypes.
Proof. split; [apply well_spaced_ok; vm_compute; reflexivity|vm_compute; reflexivity]. Qed.

(** The spacing is needed: here a colon is lost. *)
Definition ill_spaced : list ttree := [TPunct ":" Joint; TIdent "a"; TPunct ":" Alone].

Lemma ill_spaced_symbols : exists xs, tokenize_from_stream ill_spaced = map inl xs /\ types xs = [SIdent "a"; SOp Scope] /\
  forall ys, ~ symbols_of ill_spaced ys.
Proof.
  eexists [_; _]. split; [vm_compute; reflexivity|]. split; [reflexivity|]. intros ys H.
  pose proof (tokenize_of_symbols _ _ H) as E. destruct H as [F M]. change (tokenize_from_stream ill_spaced) with
    (map (@inl sym front_error) [mk_sym (SIdent "a") [TIdent "a"]; mk_sym (SOp Scope) [TPunct ":" Joint; TPunct ":" Alone]]) in E.
  apply map_inl_inj in E. subst ys. discriminate.
Qed.

Definition scoped : list ttree := ref "A" ++ [TPunct ":" Joint; TPunct ":" Alone; TPunct "=" Joint; TPunct ">" Joint; TPunct "&" Alone].

Lemma scoped_symbols : well_spaced scoped /\ exists xs, types xs = [SOp BeginProd; SIdent "A"; SOp EndProd; SOp Scope; SOp Arrow] /\
  exists r, tokenize_from_stream scoped = map inl xs ++ inr (UnexpectedPunct "&") :: r.
Proof.
  split; [apply well_spaced_ok; vm_compute; reflexivity|]. eexists [_; _; _; _; _]. split; [|eexists; vm_compute; reflexivity].
  reflexivity.
Qed.

(** The two ways to make the macro panic. *)
Definition char_input : list ttree := calc_head ++ ref "S" ++ arrow ++ [TLiteral "'a'"; semi].
Definition self_input : list ttree := calc_head ++ ref "S" ++ arrow ++ ref "S" ++ [TIdent "A"; semi].

Lemma char_input_panics (bm : BuildMode) : exists w, build_grammar show all_literals forward 50 char_input = Panic w.
Proof. destruct bm; eexists; vm_compute; reflexivity. Qed.

Lemma self_input_panics (bm : BuildMode) : exists w, build_grammar show all_literals forward 50 self_input = Panic w.
Proof. destruct bm; eexists; vm_compute; reflexivity. Qed.

(** Errors of every stage. *)
Definition bad_body : list ttree := calc_head ++ ref "S" ++ arrow ++ [TIdent "A"; TGroup Brace [hash; TIdent "B"]; semi].
Definition bad_label : list ttree := calc_head ++ ref "S" ++ arrow ++ ref "A" ++ [semi].

Lemma errors_reported (bm : BuildMode) :
  build_grammar show all_literals forward 50 bad_body = Err (CodeGenError (UnknownReference "B")) /\
  (exists e, build_grammar show all_literals forward 50 bad_label = Err (FrontError (GrammarError e))) /\
  build_grammar show all_literals forward 50 calc_head = Err (FrontError UnexpectedEnd).
Proof. destruct bm; (split; [vm_compute; reflexivity|split; [eexists; vm_compute; reflexivity|vm_compute; reflexivity]]). Qed.
