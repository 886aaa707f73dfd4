(** Inputs of [grammar!] with errors. *)
From Coq Require Import Arith Bool String Ascii List Lia.
From Verif Require Import Base.Prelude Spec.Grammar Model.Error Model.TokenTree Model.Symbol Model.FrontEnd Model.ErrorText Model.Diagnostics.
From Verif Require Import Spec.Macro Spec.Diagnostics Proofs.Macro Proofs.MacroExamples Proofs.Diagnostics.
Import ListNotations.
Open Scope string_scope.
Open Scope list_scope.

(** A span is a pair of offsets; the token number [i] has the span [(i, i+1)]. *)
Definition place := (nat * nat)%type.
Definition whole : place := (0, 0).
Definition join_places (p q : place) : option place := Some (fst p, snd q).
(** The token number [k] in the group with the span [(i, j)] has the span [(i, j + k + 1)]. *)
Fixpoint spread (s : place) (t : ttree) : stree place :=
  match t with
  | TGroup d ts =>
      STGroup place d ((fix go k ts := match ts with [] => [] | t :: ts' => spread (fst s, k) t :: go (S k) ts' end) (S (snd s)) ts) s
  | TPunct c sp => STPunct place c sp s
  | TIdent n => STIdent place n s
  | TLiteral l => STLiteral place l s
  end.
Fixpoint placed (i : nat) (ts : list ttree) : list (token place) :=
  match ts with
  | [] => []
  | t :: ts' => mk_token place (spread (i, S i) t) (i, i) :: placed (S i) ts'
  end.

Definition report (ts : list ttree) : outcome (diag place) (declarations_at place) :=
  sp_parse_declarations place whole join_places show (stream_new place (sp_tokenize_from_stream place join_places (placed 1 ts))).

Lemma spread_tree : forall t s, st_tree place (spread s t) = t /\ st_span place (spread s t) = s.
Proof.
  fix IH 1. intros [d ts|c sp|n|l] s; try (split; reflexivity). split; [|reflexivity]. cbn [spread st_tree]. f_equal.
  generalize (S (snd s)). induction ts as [|t ts IHts]; intro k; [reflexivity|]. cbn [map]. f_equal; [apply IH|apply IHts].
Qed.

Lemma placed_trees ts : forall i, trees (placed i ts) = ts.
Proof.
  induction ts as [|t ts IH]; intro i; [reflexivity|]. cbn [placed trees map]. f_equal; [apply spread_tree|apply IH].
Qed.

Lemma placed_spaced ts : well_spaced_b ts = true -> well_spaced (trees (placed 1 ts)).
Proof. rewrite placed_trees. apply well_spaced_ok. Qed.

(** name: P; terminal: Foo Bar; *)
Definition short_head : list ttree := option_of "name" [TIdent "P"] ++ option_of "terminal" [TIdent "Foo"; TIdent "Bar"].

(** <A> => a => b; *)
Definition two_arrows : list ttree := short_head ++ ref "A" ++ arrow ++ [TIdent "a"] ++ arrow ++ [TIdent "b"; semi].
(** <A> => a ? ; *)
Definition strange_token : list ttree := short_head ++ ref "A" ++ arrow ++ [TIdent "a"; TPunct "?" Alone; semi].
(** <A> => a ! b !; *)
Definition two_nothings : list ttree := short_head ++ ref "A" ++ arrow ++ [TIdent "a"; TPunct "!" Alone; TIdent "b"; TPunct "!" Alone; semi].
(** <A>: T U => a; <A> => b; *)
Definition type_left_out : list ttree :=
  short_head ++ ref "A" ++ colon :: TIdent "T" :: TIdent "U" :: arrow ++ [TIdent "a"; semi] ++ ref "A" ++ arrow ++ [TIdent "b"; semi].
(** name: P; error_type: E; <A> => a; *)
Definition no_terminal : list ttree :=
  option_of "name" [TIdent "P"] ++ option_of "error_type" [TIdent "E"] ++ ref "A" ++ arrow ++ [TIdent "a"; semi].
(** <A> *)
Definition cut_off : list ttree := short_head ++ ref "A".

Definition inputs : list (list ttree) := [calc_input; two_arrows; strange_token; two_nothings; type_left_out; no_terminal; cut_off].

Lemma inputs_spaced : Forall (fun ts => well_spaced (trees (placed 1 ts))) inputs.
Proof. repeat constructor; apply placed_spaced; reflexivity. Qed.

Lemma reports : map (fun ts => match report ts with Ok _ => None | Err d => Some (dg_message place d, dg_span place d) | _ => Some ("", whole) end) inputs =
  [None;
   Some ("Unexpected token", (16, 18));
   Some ("Unexpected token ""?""", (16, 17));
   Some ("Epsilon may only appear in a rule by itself", (16, 17));
   Some ("Production rules for the same label have different return types", (14, 16));
   Some ("Expected ""terminal"" or ""enum_terminal"" option", (5, 6));
   Some ("Unexpected end of input", (8, 9))].
Proof. vm_compute. reflexivity. Qed.

Definition item_symbols {span} (its : items span) : list (symbol_at span) :=
  flat_map (fun i => match i with inl x => [x] | inr _ => [] end) its.

Definition cut_off_symbols : list (symbol_at place) :=
  Eval vm_compute in item_symbols (sp_tokenize_from_stream place join_places (placed 1 cut_off)).

Lemma cut_off_read : symbols_at join_places (placed 1 cut_off) (map inl cut_off_symbols).
Proof.
  assert (E : sp_tokenize_from_stream place join_places (placed 1 cut_off) = map inl cut_off_symbols) by (vm_compute; reflexivity).
  rewrite <- E. apply (symbols_of_tokens whole). apply placed_spaced. reflexivity.
Qed.

Lemma cut_off_error : report cut_off = Err (mk_diag place "Unexpected end of input" (8, 9)).
Proof. vm_compute. reflexivity. Qed.

Lemma cut_off_last : exists xs x, cut_off_symbols = xs ++ [x] /\ span_of x = (12, 13).
Proof.
  exists (removelast cut_off_symbols), (last cut_off_symbols (mk_at place (SOp Bang) [] (mk_meta place whole []))). split; vm_compute; reflexivity.
Qed.

Lemma cut_off_plain : parse_declarations show (tokenize_from_stream (trees (placed 1 cut_off))) = Err UnexpectedEnd.
Proof. vm_compute. reflexivity. Qed.

Theorem cut_off_misplaced :
  exists (span : Type) (call_site : span) (join_spans : span -> span -> option span) (print : list ttree -> string) ts d xs x,
  well_spaced (trees ts) /\
  sp_parse_declarations span call_site join_spans print (stream_new span (sp_tokenize_from_stream span join_spans ts)) = Err d /\
  parse_declarations print (tokenize_from_stream (trees ts)) = Err UnexpectedEnd /\
  symbols_at join_spans ts (map inl (xs ++ [x])) /\ dg_span span d <> span_of x /\ dg_span span d <> call_site.
Proof.
  destruct cut_off_last as (xs & x & E & S). exists place, whole, join_places, show, (placed 1 cut_off), (mk_diag place "Unexpected end of input" (8, 9)), xs, x.
  split; [now apply placed_spaced|]. split; [exact cut_off_error|]. split; [exact cut_off_plain|].
  split; [rewrite <- E; exact cut_off_read|]. rewrite S. split; discriminate.
Qed.

(** <A> => <B>; <B> => <C> | <D>; <C> => c; <D> => c; *)
Definition conflict_input : list ttree :=
  short_head ++ ref "A" ++ arrow ++ ref "B" ++ [semi] ++ ref "B" ++ arrow ++ ref "C" ++ [bar] ++ ref "D" ++ [semi] ++
  ref "C" ++ arrow ++ [TIdent "c"; semi] ++ ref "D" ++ arrow ++ [TIdent "c"; semi].

Lemma conflict_reported : exists e,
  sp_parse_grammar (bm := true) place whole join_places show 50
    (stream_new place (sp_tokenize_from_stream place join_places (placed 1 conflict_input))) =
    Err (mk_diag place "Reduce conflict between rule RuleId(4) and rule RuleId(3) with lookahead $" whole) /\
  parse_grammar (bm := true) show 50 (tokenize_from_stream (trees (placed 1 conflict_input))) = Err (GrammarError e).
Proof. eexists. split; vm_compute; reflexivity. Qed.
