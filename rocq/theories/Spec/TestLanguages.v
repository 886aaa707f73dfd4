(** What the parsers of the tests should compute, without grammars. *)
From Coq Require Import Arith Bool String Ascii NArith List.
From Verif Require Import Base.Prelude Model.TokenTree Model.Terminal Model.CodeGen Model.Runtime Model.Diagnostics Model.Rust Model.Emit Model.Expand Model.TestGrammars.
From Verif Require Import Spec.Values Spec.Diagnostics.
Import ListNotations.
Open Scope list_scope.

(** [item_of bm input em]: [em] is what [grammar!] or [pub_grammar!], built in mode
    [bm], makes of the tokens [input], for some spans of these, some orders of hash
    maps, and some way of printing tokens. *)
Definition item_of (bm : BuildMode) (input : list ttree) (em : emitted) : Prop :=
  exists (span : Type) (call_site : span) (join_spans : span -> span -> option span) (print : list ttree -> string) (lex_error : string -> string)
    (literal_ok : string -> bool) ho fuel ts,
  orders_ok ho /\ trees ts = input /\
  (Expand.grammar (bm := bm) span call_site join_spans print lex_error literal_ok ho fuel ts = Ok (Item span em) \/
   Expand.pub_grammar (bm := bm) span call_site join_spans print lex_error literal_ok ho fuel ts = Ok (Item span em)).

(** Both macros always make an item of the tokens [input], whatever spans these
    have, in all orders of hash maps, and however tokens are printed, if the compiler
    reads the literals in them. *)
Definition always_made (bm : BuildMode) (input : list ttree) : Prop :=
  forall (span : Type) (call_site : span) (join_spans : span -> span -> option span) (print : list ttree -> string) (lex_error : string -> string)
    (literal_ok : string -> bool) ho ts,
  orders_ok ho -> trees ts = input -> (forall text, In (TLiteral text) input -> literal_ok text = true) ->
  exists N, forall fuel, N < fuel -> exists em em',
    Expand.grammar (bm := bm) span call_site join_spans print lex_error literal_ok ho fuel ts = Ok (Item span em) /\
    Expand.pub_grammar (bm := bm) span call_site join_spans print lex_error literal_ok ho fuel ts = Ok (Item span em').

(** [first_wrong L ts o]: [o] is the first of the tokens [ts] after which no way of
    going on gives a word of [L], or [None] if only the end comes too early. *)
Definition first_wrong {A} (L : list A -> Prop) (ts : list A) (o : option A) : Prop :=
  exists n, n <= List.length ts /\ o = nth_error ts n /\ (exists rest, L (firstn n ts ++ rest)) /\
    (n < List.length ts -> forall rest, ~ L (firstn (S n) ts ++ rest)).

(** ** tests/brainfck.rs: programs are the lists of instructions in which brackets
    match. *)
Inductive instruction := IncTape | DecTape | IncByte | DecByte | Output | Input | OpenBracket | CloseBracket.
Definition variant_name (i : instruction) : string :=
  match i with
  | IncTape => "IncTape"
  | DecTape => "DecTape"
  | IncByte => "IncByte"
  | DecByte => "DecByte"
  | Output => "Output"
  | Input => "Input"
  | OpenBracket => "OpenBracket"
  | CloseBracket => "CloseBracket"
  end%string.

(** An instruction as a token, and a program as a value. *)
Definition bf_tok (i : instruction) : tok code_rust := TVariant (variant_name i) None.
Definition bf_val (code : list instruction) : val code_rust := RUser (map variant_name code).

(** After [depth] open brackets, the brackets of the rest match. *)
Fixpoint brackets_match (depth : nat) (code : list instruction) : Prop :=
  match code with
  | [] => depth = 0
  | OpenBracket :: code' => brackets_match (S depth) code'
  | CloseBracket :: code' => match depth with 0 => False | S d => brackets_match d code' end
  | _ :: code' => brackets_match depth code'
  end.

(** The first bracket that closes none, if there is one. *)
Fixpoint unmatched (depth : nat) (code : list instruction) : option instruction :=
  match code with
  | [] => None
  | OpenBracket :: code' => unmatched (S depth) code'
  | CloseBracket :: code' => match depth with 0 => Some CloseBracket | S d => unmatched d code' end
  | _ :: code' => unmatched depth code'
  end.

(** ** tests/test_simple.rs: sums of products of decimal numbers *)
Section Join.
Context {A : Type}.
Fixpoint join (sep : A) (ls : list (list A)) : list A :=
  match ls with
  | [] => []
  | [l] => l
  | l :: ls' => l ++ sep :: join sep ls'
  end.
End Join.

(** A number is a list of digits; a sum is a list of products, and these are lists of
    numbers. *)
Definition digit_char (d : N) : N := (48 + d)%N.
Definition number_text (ds : list N) : list N := map digit_char ds.
Definition product_text (ns : list (list N)) : list N := join 42%N (map number_text ns).
Definition sum_text (ps : list (list (list N))) : list N := join 43%N (map product_text ps).

Definition is_number (ds : list N) : Prop := ds <> [] /\ Forall (fun d => (d < 10)%N) ds.
Definition is_product (ns : list (list N)) : Prop := ns <> [] /\ Forall is_number ns.
Definition is_sum (ps : list (list (list N))) : Prop := ps <> [] /\ Forall is_product ps.

Definition number_value (ds : list N) : N := fold_left (fun n d => 10 * n + d)%N ds 0%N.
Definition product_value (ns : list (list N)) : N := fold_right N.mul 1%N (map number_value ns).
Definition sum_value (ps : list (list (list N))) : N := fold_right N.add 0%N (map product_value ps).

(** The text is a sum, and [v] its value, modulo the size of [u32]. *)
Definition calculates (text : list N) (v : N) : Prop :=
  exists ps, is_sum ps /\ text = sum_text ps /\ v = (sum_value ps mod u32_size)%N.

(** ** tests/error_messages.rs: one or more tokens, all of them [A] or all of them
    [B] *)
Inductive ab_token := A (n : nat) | B (n : nat) | C (n : nat).
Definition ab_tok (t : ab_token) : tok place_rust :=
  match t with
  | A n => TVariant "A" (Some n)
  | B n => TVariant "B" (Some n)
  | C n => TVariant "C" (Some n)
  end.
Definition is_a (t : ab_token) : Prop := match t with A _ => True | _ => False end.
Definition is_b (t : ab_token) : Prop := match t with B _ => True | _ => False end.
(** The first token that is not like the first one. *)
Definition unlike (ts : list ab_token) : option ab_token :=
  match ts with
  | [] => None
  | A _ :: ts' => find (fun t => match t with A _ => false | _ => true end) ts'
  | B _ :: ts' => find (fun t => match t with B _ => false | _ => true end) ts'
  | C n :: _ => Some (C n)
  end.
Definition all_alike (ts : list ab_token) : Prop := ts <> [] /\ (Forall is_a ts \/ Forall is_b ts).

(** ** tests/sanity_tests.rs: requests, and words that a parser with less lookahead
    information would confuse *)
Definition letter (c : N) : Prop := (65 <= c <= 90 \/ 97 <= c <= 122)%N.
Definition chars (s : string) : list N := map N_of_ascii (list_ascii_of_string s).
Definition request (text : list N) (t : request_type) (uri : list N) : Prop :=
  exists name, name <> [] /\ Forall letter name /\ uri = 58%N :: name /\
  text = chars (match t with Get => "GET " | Head => "HEAD " end)%string ++ uri.
Definition non_lalr_words : list (string * string) := [("da", "C1"); ("bdc", "C2"); ("dc", "C3"); ("bda", "C4")]%string.
