(** The grammars of the tests in /repo/tests, as the tokens the macro is given
    (comments and the layout are not part of these), and the code of their
    constructors. *)
From Coq Require Import Arith Bool String Ascii NArith List.
From Verif Require Import Base.Prelude Spec.EmittedCode.
From Verif Require Import Model.TokenTree Model.Terminal Model.Constructor Model.Runtime Model.Rust.
Import ListNotations.
Open Scope char_scope.
Open Scope string_scope.
Open Scope list_scope.

(** tests/test_simple.rs:7-27 *)
Definition test_simple_input : list ttree :=
  [ TIdent "name"; TPunct ":" Alone; TIdent "Test"; TPunct ";" Alone;
    TIdent "terminal"; TPunct ":" Alone; TIdent "char"; TPunct ";" Alone;
    TPunct "<" Alone; TIdent "S"; TPunct ">" Joint; TPunct ":" Alone; TIdent "u32"; TPunct "=" Joint; TPunct ">" Alone; TPunct "<" Alone; TIdent "A"; TPunct ">" Alone; TGroup Brace [TPunct "#" Alone; TIdent "A"]; TPunct ";" Alone;
    TPunct "<" Alone; TIdent "A"; TPunct ">" Joint; TPunct ":" Alone; TIdent "u32"; TPunct "=" Joint; TPunct ">" Alone; TPunct "<" Alone; TIdent "A"; TPunct ">" Alone; TLiteral "'+'"; TPunct "<" Alone; TIdent "P"; TPunct ">" Alone; TGroup Brace [TPunct "#" Alone; TIdent "A"; TPunct "+" Alone; TPunct "#" Alone; TIdent "P"]; TPunct "|" Alone; TPunct "<" Alone; TIdent "P"; TPunct ">" Alone; TGroup Brace [TPunct "#" Alone; TIdent "P"]; TPunct ";" Alone;
    TPunct "<" Alone; TIdent "P"; TPunct ">" Joint; TPunct ":" Alone; TIdent "u32"; TPunct "=" Joint; TPunct ">" Alone; TPunct "<" Alone; TIdent "P"; TPunct ">" Alone; TLiteral "'*'"; TPunct "<" Alone; TIdent "V"; TPunct ">" Alone; TGroup Brace [TPunct "#" Alone; TIdent "P"; TPunct "*" Alone; TPunct "#" Alone; TIdent "V"]; TPunct "|" Alone; TPunct "<" Alone; TIdent "V"; TPunct ">" Alone; TGroup Brace [TPunct "#" Alone; TIdent "V"]; TPunct ";" Alone;
    TPunct "<" Alone; TIdent "V"; TPunct ">" Joint; TPunct ":" Alone; TIdent "u32"; TPunct "=" Joint; TPunct ">" Alone; TPunct "<" Alone; TIdent "V"; TPunct ">" Alone; TPunct "<" Alone; TIdent "dig"; TPunct ">" Alone; TGroup Brace [TLiteral "10"; TPunct "*" Alone; TPunct "#" Alone; TIdent "V"; TPunct "+" Alone; TPunct "#" Alone; TIdent "dig"; TPunct "." Alone; TIdent "to_digit"; TGroup Parenthesis [TLiteral "10"]; TPunct "." Alone; TIdent "unwrap"; TGroup Parenthesis []]; TPunct "|" Alone; TPunct "<" Alone; TIdent "dig"; TPunct ">" Alone; TGroup Brace [TPunct "#" Alone; TIdent "dig"; TPunct "." Alone; TIdent "to_digit"; TGroup Parenthesis [TLiteral "10"]; TPunct "." Alone; TIdent "unwrap"; TGroup Parenthesis []]; TPunct ";" Alone;
    TPunct "<" Alone; TIdent "dig"; TPunct ">" Joint; TPunct ":" Alone; TIdent "char"; TPunct "=" Joint; TPunct ">" Alone; TLiteral "'0'"; TPunct "|" Alone; TLiteral "'1'"; TPunct "|" Alone; TLiteral "'2'"; TPunct "|" Alone; TLiteral "'3'"; TPunct "|" Alone; TLiteral "'4'"; TPunct "|" Alone; TLiteral "'5'"; TPunct "|" Alone; TLiteral "'6'"; TPunct "|" Alone; TLiteral "'7'"; TPunct "|" Alone; TLiteral "'8'"; TPunct "|" Alone; TLiteral "'9'"; TPunct ";" Alone ].

(** tests/test_large_or.rs:7-17 *)
Definition large_or_input : list ttree :=
  [ TIdent "name"; TPunct ":" Alone; TIdent "Test"; TPunct ";" Alone;
    TIdent "terminal"; TPunct ":" Alone; TIdent "char"; TPunct ";" Alone;
    TPunct "<" Alone; TIdent "S"; TPunct ">" Joint; TPunct ":" Alone; TIdent "char"; TPunct "=" Joint; TPunct ">" Alone; TPunct "<" Alone; TIdent "dig"; TPunct ">" Alone; TGroup Brace [TPunct "#" Alone; TIdent "dig"]; TPunct ";" Alone;
    TPunct "<" Alone; TIdent "dig"; TPunct ">" Joint; TPunct ":" Alone; TIdent "char"; TPunct "=" Joint; TPunct ">" Alone; TLiteral "'a'"; TPunct "|" Alone; TLiteral "'b'"; TPunct "|" Alone; TLiteral "'c'"; TPunct "|" Alone; TLiteral "'d'"; TPunct "|" Alone; TLiteral "'e'"; TPunct "|" Alone; TLiteral "'f'"; TPunct "|" Alone; TLiteral "'g'"; TPunct "|" Alone; TLiteral "'h'"; TPunct "|" Alone; TLiteral "'i'"; TPunct "|" Alone; TLiteral "'j'"; TPunct "|" Alone; TLiteral "'k'"; TPunct "|" Alone; TLiteral "'l'"; TPunct "|" Alone; TLiteral "'m'"; TPunct "|" Alone; TLiteral "'n'"; TPunct "|" Alone; TLiteral "'o'"; TPunct "|" Alone; TLiteral "'p'"; TPunct "|" Alone; TLiteral "'q'"; TPunct "|" Alone; TLiteral "'r'"; TPunct "|" Alone; TLiteral "'s'"; TPunct "|" Alone; TLiteral "'t'"; TPunct "|" Alone; TLiteral "'u'"; TPunct "|" Alone; TLiteral "'v'"; TPunct "|" Alone; TLiteral "'w'"; TPunct "|" Alone; TLiteral "'x'"; TPunct "|" Alone; TLiteral "'y'"; TPunct "|" Alone; TLiteral "'z'"; TPunct "|" Alone; TLiteral "'A'"; TPunct "|" Alone; TLiteral "'B'"; TPunct "|" Alone; TLiteral "'C'"; TPunct "|" Alone; TLiteral "'D'"; TPunct "|" Alone; TLiteral "'E'"; TPunct "|" Alone; TLiteral "'F'"; TPunct "|" Alone; TLiteral "'G'"; TPunct "|" Alone; TLiteral "'H'"; TPunct "|" Alone; TLiteral "'I'"; TPunct "|" Alone; TLiteral "'J'"; TPunct "|" Alone; TLiteral "'K'"; TPunct "|" Alone; TLiteral "'L'"; TPunct "|" Alone; TLiteral "'M'"; TPunct "|" Alone; TLiteral "'N'"; TPunct "|" Alone; TLiteral "'O'"; TPunct "|" Alone; TLiteral "'P'"; TPunct "|" Alone; TLiteral "'Q'"; TPunct "|" Alone; TLiteral "'R'"; TPunct "|" Alone; TLiteral "'S'"; TPunct "|" Alone; TLiteral "'T'"; TPunct "|" Alone; TLiteral "'U'"; TPunct "|" Alone; TLiteral "'V'"; TPunct "|" Alone; TLiteral "'W'"; TPunct "|" Alone; TLiteral "'X'"; TPunct "|" Alone; TLiteral "'Y'"; TPunct "|" Alone; TLiteral "'Z'"; TPunct ";" Alone ].

(** tests/brainfck.rs:92-110 *)
Definition brainfck_input : list ttree :=
  [ TIdent "name"; TPunct ":" Alone; TIdent "BrainFck"; TPunct ";" Alone;
    TIdent "enum_terminal"; TPunct ":" Alone; TIdent "Instruction"; TPunct ";" Alone;
    TPunct "<" Alone; TIdent "root"; TPunct ">" Joint; TPunct ":" Alone; TIdent "InstructionList"; TPunct "=" Joint; TPunct ">" Alone; TPunct "<" Alone; TIdent "instruction_list"; TPunct ">" Joint; TPunct ";" Alone;
    TPunct "<" Alone; TIdent "instruction_list"; TPunct ">" Joint; TPunct ":" Alone; TIdent "InstructionList"; TPunct "=" Joint; TPunct ">" Alone; TPunct "!" Alone; TGroup Brace [TIdent "InstructionList"; TGroup Brace [TIdent "instructions"; TPunct ":" Alone; TIdent "Vec"; TPunct ":" Joint; TPunct ":" Alone; TIdent "new"; TGroup Parenthesis []]]; TPunct "|" Alone; TPunct "<" Alone; TIdent "instruction_list"; TPunct ">" Alone; TPunct "<" Alone; TIdent "instruction"; TPunct ">" Alone; TGroup Brace [TPunct "#" Alone; TIdent "instruction_list"; TPunct "." Alone; TIdent "with"; TGroup Parenthesis [TPunct "#" Alone; TIdent "instruction"]]; TPunct "|" Alone; TPunct "<" Alone; TIdent "instruction_list"; TPunct ">" Alone; TIdent "OpenBracket"; TPunct "<" Alone; TIdent "instruction_list"; TPunct ">" Alone; TIdent "CloseBracket"; TGroup Brace [TPunct "#" Alone; TLiteral "0"; TPunct "." Alone; TIdent "push"; TGroup Parenthesis [TIdent "Instruction"; TPunct ":" Joint; TPunct ":" Alone; TIdent "OpenBracket"]; TPunct ";" Alone; TPunct "#" Alone; TLiteral "0"; TPunct "." Alone; TIdent "extend"; TGroup Parenthesis [TPunct "#" Alone; TLiteral "2"]; TPunct ";" Alone; TPunct "#" Alone; TLiteral "0"; TPunct "." Alone; TIdent "push"; TGroup Parenthesis [TIdent "Instruction"; TPunct ":" Joint; TPunct ":" Alone; TIdent "CloseBracket"]; TPunct ";" Alone; TPunct "#" Alone; TLiteral "0"]; TPunct ";" Alone;
    TPunct "<" Alone; TIdent "instruction"; TPunct ">" Joint; TPunct ":" Alone; TIdent "Instruction"; TPunct "=" Joint; TPunct ">" Alone; TIdent "IncTape"; TPunct ";" Alone;
    TPunct "<" Alone; TIdent "instruction"; TPunct ">" Joint; TPunct ":" Alone; TIdent "Instruction"; TPunct "=" Joint; TPunct ">" Alone; TIdent "DecTape"; TPunct ";" Alone;
    TPunct "<" Alone; TIdent "instruction"; TPunct ">" Joint; TPunct ":" Alone; TIdent "Instruction"; TPunct "=" Joint; TPunct ">" Alone; TIdent "IncByte"; TPunct ";" Alone;
    TPunct "<" Alone; TIdent "instruction"; TPunct ">" Joint; TPunct ":" Alone; TIdent "Instruction"; TPunct "=" Joint; TPunct ">" Alone; TIdent "DecByte"; TPunct ";" Alone;
    TPunct "<" Alone; TIdent "instruction"; TPunct ">" Joint; TPunct ":" Alone; TIdent "Instruction"; TPunct "=" Joint; TPunct ">" Alone; TIdent "Output"; TPunct ";" Alone;
    TPunct "<" Alone; TIdent "instruction"; TPunct ">" Joint; TPunct ":" Alone; TIdent "Instruction"; TPunct "=" Joint; TPunct ">" Alone; TIdent "Input"; TPunct ";" Alone ].

(** tests/fallible_input_stream.rs:18-28 *)
Definition fallible_input_stream_input : list ttree :=
  [ TIdent "name"; TPunct ":" Alone; TIdent "Test"; TPunct ";" Alone;
    TIdent "terminal"; TPunct ":" Alone; TIdent "char"; TPunct ";" Alone;
    TIdent "error_type"; TPunct ":" Alone; TIdent "MyError"; TPunct ";" Alone;
    TPunct "<" Alone; TIdent "S"; TPunct ">" Joint; TPunct ":" Alone; TIdent "u32"; TPunct "=" Joint; TPunct ">" Alone; TPunct "<" Alone; TIdent "A"; TPunct ">" Alone; TLiteral "'+'"; TPunct "<" Alone; TIdent "B"; TPunct ">" Alone; TGroup Brace [TPunct "#" Alone; TIdent "A"; TPunct "+" Alone; TPunct "#" Alone; TIdent "B"]; TPunct ";" Alone;
    TPunct "<" Alone; TIdent "A"; TPunct ">" Joint; TPunct ":" Alone; TIdent "u32"; TPunct "=" Joint; TPunct ">" Alone; TPunct "<" Alone; TIdent "dig"; TPunct ">" Alone; TGroup Brace [TIdent "u32"; TPunct ":" Joint; TPunct ":" Alone; TIdent "from"; TGroup Parenthesis [TPunct "#" Alone; TIdent "dig"]; TPunct "-" Alone; TIdent "u32"; TPunct ":" Joint; TPunct ":" Alone; TIdent "from"; TGroup Parenthesis [TLiteral "b'0'"]]; TPunct ";" Alone;
    TPunct "<" Alone; TIdent "B"; TPunct ">" Joint; TPunct ":" Alone; TIdent "u32"; TPunct "=" Joint; TPunct ">" Alone; TPunct "<" Alone; TIdent "dig"; TPunct ">" Alone; TGroup Brace [TIdent "u32"; TPunct ":" Joint; TPunct ":" Alone; TIdent "from"; TGroup Parenthesis [TPunct "#" Alone; TIdent "dig"]; TPunct "-" Alone; TIdent "u32"; TPunct ":" Joint; TPunct ":" Alone; TIdent "from"; TGroup Parenthesis [TLiteral "b'0'"]]; TPunct ";" Alone;
    TPunct "<" Alone; TIdent "dig"; TPunct ">" Joint; TPunct ":" Alone; TIdent "char"; TPunct "=" Joint; TPunct ">" Alone; TLiteral "'0'"; TPunct "|" Alone; TLiteral "'1'"; TPunct "|" Alone; TLiteral "'2'"; TPunct "|" Alone; TLiteral "'3'"; TPunct "|" Alone; TLiteral "'4'"; TPunct "|" Alone; TLiteral "'5'"; TPunct "|" Alone; TLiteral "'6'"; TPunct "|" Alone; TLiteral "'7'"; TPunct "|" Alone; TLiteral "'8'"; TPunct "|" Alone; TLiteral "'9'"; TPunct ";" Alone ].

(** tests/auto_into.rs:29-38 *)
Definition auto_into_input : list ttree :=
  [ TIdent "name"; TPunct ":" Alone; TIdent "AutoInto"; TPunct ";" Alone;
    TIdent "terminal"; TPunct ":" Alone; TIdent "char"; TPunct ";" Alone;
    TPunct "<" Alone; TIdent "root"; TPunct ">" Joint; TPunct ":" Alone; TIdent "AOrB"; TPunct "=" Joint; TPunct ">" Alone; TPunct "<" Alone; TIdent "a_or_b"; TPunct ">" Joint; TPunct ";" Alone;
    TPunct "<" Alone; TIdent "a_or_b"; TPunct ">" Joint; TPunct ":" Alone; TIdent "AOrB"; TPunct "=" Joint; TPunct ">" Alone; TPunct "<" Alone; TIdent "a"; TPunct ">" Joint; TPunct ";" Alone;
    TPunct "<" Alone; TIdent "a_or_b"; TPunct ">" Joint; TPunct ":" Alone; TIdent "AOrB"; TPunct "=" Joint; TPunct ">" Alone; TPunct "<" Alone; TIdent "b"; TPunct ">" Joint; TPunct ";" Alone;
    TPunct "<" Alone; TIdent "a"; TPunct ">" Joint; TPunct ":" Alone; TIdent "A"; TPunct "=" Joint; TPunct ">" Alone; TLiteral "'a'"; TGroup Brace [TIdent "A"; TGroup Parenthesis [TLiteral "1"]]; TPunct ";" Alone;
    TPunct "<" Alone; TIdent "b"; TPunct ">" Joint; TPunct ":" Alone; TIdent "B"; TPunct "=" Joint; TPunct ">" Alone; TLiteral "'b'"; TGroup Brace [TIdent "B"; TGroup Parenthesis [TLiteral "2"]]; TPunct ";" Alone ].

(** tests/disjoint_token_pattern.rs:16-21 *)
Definition disjoint_input : list ttree :=
  [ TIdent "name"; TPunct ":" Alone; TIdent "DisjointPattern"; TPunct ";" Alone;
    TIdent "enum_terminal"; TPunct ":" Alone; TIdent "Token"; TPunct ";" Alone;
    TPunct "<" Alone; TIdent "root"; TPunct ">" Alone; TPunct "=" Joint; TPunct ">" Alone; TPunct "<" Alone; TIdent "ambiguous"; TPunct ">" Joint; TPunct ";" Alone;
    TPunct "<" Alone; TIdent "ambiguous"; TPunct ">" Alone; TPunct "=" Joint; TPunct ">" Alone; TIdent "A"; TGroup Parenthesis [TIdent "A"; TGroup Brace [TIdent "field1"; TPunct ":" Alone; TLiteral "0"; TPunct "." Joint; TPunct "." Alone; TLiteral "10"; TPunct "," Alone; TIdent "field2"; TPunct ":" Alone; TIdent "_"]]; TPunct ";" Alone;
    TPunct "<" Alone; TIdent "ambiguous"; TPunct ">" Alone; TPunct "=" Joint; TPunct ">" Alone; TIdent "A"; TGroup Parenthesis [TIdent "A"; TGroup Brace [TIdent "field1"; TPunct ":" Alone; TLiteral "5"; TPunct "." Joint; TPunct "." Alone; TLiteral "12"; TPunct "," Alone; TIdent "field2"; TPunct ":" Alone; TLiteral "100"]]; TPunct ";" Alone ].

(** tests/error_messages.rs:12-26 *)
Definition error_messages_input : list ttree :=
  [ TIdent "name"; TPunct ":" Alone; TIdent "AOrB"; TPunct ";" Alone;
    TIdent "enum_terminal"; TPunct ":" Alone; TIdent "Token"; TPunct ";" Alone;
    TPunct "<" Alone; TIdent "root"; TPunct ">" Alone; TPunct "=" Joint; TPunct ">" Alone; TPunct "<" Alone; TIdent "text"; TPunct ">" Joint; TPunct ";" Alone;
    TPunct "<" Alone; TIdent "text"; TPunct ">" Alone; TPunct "=" Joint; TPunct ">" Alone; TPunct "<" Alone; TIdent "all_a"; TPunct ">" Joint; TPunct ";" Alone;
    TPunct "<" Alone; TIdent "text"; TPunct ">" Alone; TPunct "=" Joint; TPunct ">" Alone; TPunct "<" Alone; TIdent "all_b"; TPunct ">" Joint; TPunct ";" Alone;
    TPunct "<" Alone; TIdent "all_a"; TPunct ">" Alone; TPunct "=" Joint; TPunct ">" Alone; TPunct "<" Alone; TIdent "a"; TPunct ">" Joint; TPunct ";" Alone;
    TPunct "<" Alone; TIdent "all_a"; TPunct ">" Alone; TPunct "=" Joint; TPunct ">" Alone; TPunct "<" Alone; TIdent "all_a"; TPunct ">" Alone; TPunct "<" Alone; TIdent "a"; TPunct ">" Joint; TPunct ";" Alone;
    TPunct "<" Alone; TIdent "all_b"; TPunct ">" Alone; TPunct "=" Joint; TPunct ">" Alone; TPunct "<" Alone; TIdent "b"; TPunct ">" Joint; TPunct ";" Alone;
    TPunct "<" Alone; TIdent "all_b"; TPunct ">" Alone; TPunct "=" Joint; TPunct ">" Alone; TPunct "<" Alone; TIdent "all_b"; TPunct ">" Alone; TPunct "<" Alone; TIdent "b"; TPunct ">" Joint; TPunct ";" Alone;
    TPunct "<" Alone; TIdent "a"; TPunct ">" Alone; TPunct "=" Joint; TPunct ">" Alone; TIdent "A"; TGroup Parenthesis [TPunct "." Joint; TPunct "." Alone]; TPunct ";" Alone;
    TPunct "<" Alone; TIdent "b"; TPunct ">" Alone; TPunct "=" Joint; TPunct ">" Alone; TIdent "B"; TGroup Parenthesis [TPunct "." Joint; TPunct "." Alone]; TPunct ";" Alone ].

(** tests/fallible_ctor.rs:42-52 *)
Definition fallible_ctor_input : list ttree :=
  [ TIdent "name"; TPunct ":" Alone; TIdent "AutoInto"; TPunct ";" Alone;
    TIdent "terminal"; TPunct ":" Alone; TIdent "char"; TPunct ";" Alone;
    TIdent "error_type"; TPunct ":" Alone; TIdent "MyError"; TPunct ";" Alone;
    TPunct "<" Alone; TIdent "root"; TPunct ">" Joint; TPunct ":" Alone; TIdent "Container"; TPunct "=" Joint; TPunct ">" Alone; TPunct "<" Alone; TIdent "a"; TPunct ">" Joint; TPunct ";" Alone;
    TPunct "<" Alone; TIdent "a"; TPunct ">" Joint; TPunct ":" Alone; TIdent "A"; TPunct "=" Joint; TPunct ">" Alone; TLiteral "'a'"; TGroup Brace [TIdent "A"; TGroup Parenthesis [TLiteral "1"]]; TPunct ";" Alone;
    TPunct "<" Alone; TIdent "a"; TPunct ">" Joint; TPunct ":" Alone; TIdent "A"; TPunct "=" Joint; TPunct ">" Alone; TLiteral "'z'"; TGroup Brace [TIdent "A"; TGroup Parenthesis [TLiteral "100"]]; TPunct ";" Alone;
    TPunct "<" Alone; TIdent "a"; TPunct ">" Joint; TPunct ":" Alone; TIdent "A"; TPunct "=" Joint; TPunct ">" Alone; TLiteral "'b'"; TGroup Brace [TIdent "A"; TGroup Parenthesis [TLiteral "1"]; TPunct "." Alone; TIdent "try_into"; TGroup Parenthesis []; TPunct "?" Alone]; TPunct ";" Alone;
    TPunct "<" Alone; TIdent "a"; TPunct ">" Joint; TPunct ":" Alone; TIdent "A"; TPunct "=" Joint; TPunct ">" Alone; TLiteral "'y'"; TGroup Brace [TIdent "A"; TGroup Parenthesis [TLiteral "100"]; TPunct "." Alone; TIdent "try_into"; TGroup Parenthesis []; TPunct "?" Alone]; TPunct ";" Alone ].

(** tests/into_error_type.rs:68-84 *)
Definition into_error_input : list ttree :=
  [ TIdent "name"; TPunct ":" Alone; TIdent "AutoInto"; TPunct ";" Alone;
    TIdent "terminal"; TPunct ":" Alone; TIdent "char"; TPunct ";" Alone;
    TIdent "error_type"; TPunct ":" Alone; TIdent "MyError"; TPunct ";" Alone;
    TPunct "<" Alone; TIdent "root"; TPunct ">" Joint; TPunct ":" Alone; TIdent "Container"; TPunct "=" Joint; TPunct ">" Alone; TPunct "<" Alone; TIdent "a_or_b"; TPunct ">" Joint; TPunct ";" Alone;
    TPunct "<" Alone; TIdent "a_or_b"; TPunct ">" Joint; TPunct ":" Alone; TIdent "Container"; TPunct "=" Joint; TPunct ">" Alone; TPunct "<" Alone; TIdent "a"; TPunct ">" Joint; TPunct ";" Alone;
    TPunct "<" Alone; TIdent "a_or_b"; TPunct ">" Joint; TPunct ":" Alone; TIdent "Container"; TPunct "=" Joint; TPunct ">" Alone; TPunct "<" Alone; TIdent "b"; TPunct ">" Joint; TPunct ";" Alone;
    TPunct "<" Alone; TIdent "a"; TPunct ">" Joint; TPunct ":" Alone; TIdent "A"; TPunct "=" Joint; TPunct ">" Alone; TLiteral "'a'"; TGroup Brace [TIdent "A"; TGroup Parenthesis [TLiteral "1"]]; TPunct ";" Alone;
    TPunct "<" Alone; TIdent "a"; TPunct ">" Joint; TPunct ":" Alone; TIdent "A"; TPunct "=" Joint; TPunct ">" Alone; TLiteral "'z'"; TGroup Brace [TIdent "A"; TGroup Parenthesis [TLiteral "100"]]; TPunct ";" Alone;
    TPunct "<" Alone; TIdent "a"; TPunct ">" Joint; TPunct ":" Alone; TIdent "A"; TPunct "=" Joint; TPunct ">" Alone; TLiteral "'b'"; TGroup Brace [TIdent "A"; TGroup Parenthesis [TLiteral "1"]; TPunct "." Alone; TIdent "try_into"; TGroup Parenthesis []; TPunct "?" Alone]; TPunct ";" Alone;
    TPunct "<" Alone; TIdent "a"; TPunct ">" Joint; TPunct ":" Alone; TIdent "A"; TPunct "=" Joint; TPunct ">" Alone; TLiteral "'y'"; TGroup Brace [TIdent "A"; TGroup Parenthesis [TLiteral "100"]; TPunct "." Alone; TIdent "try_into"; TGroup Parenthesis []; TPunct "?" Alone]; TPunct ";" Alone;
    TPunct "<" Alone; TIdent "b"; TPunct ">" Joint; TPunct ":" Alone; TIdent "Container"; TPunct "=" Joint; TPunct ">" Alone; TLiteral "'c'"; TGroup Brace [TIdent "Container"; TPunct ":" Joint; TPunct ":" Alone; TIdent "try_from_a"; TGroup Parenthesis [TIdent "A"; TGroup Parenthesis [TLiteral "1"]]; TPunct "?" Alone]; TPunct ";" Alone;
    TPunct "<" Alone; TIdent "b"; TPunct ">" Joint; TPunct ":" Alone; TIdent "Container"; TPunct "=" Joint; TPunct ">" Alone; TLiteral "'x'"; TGroup Brace [TIdent "Container"; TPunct ":" Joint; TPunct ":" Alone; TIdent "try_from_a"; TGroup Parenthesis [TIdent "A"; TGroup Parenthesis [TLiteral "100"]]; TPunct "?" Alone]; TPunct ";" Alone ].

(** tests/token_pattern.rs:53-67 *)
Definition token_pattern_input : list ttree :=
  [ TIdent "name"; TPunct ":" Alone; TIdent "TokenPattern"; TPunct ";" Alone;
    TIdent "enum_terminal"; TPunct ":" Alone; TIdent "Token"; TPunct ";" Alone;
    TPunct "<" Alone; TIdent "root"; TPunct ">" Joint; TPunct ":" Alone; TIdent "MainMethod"; TPunct "=" Joint; TPunct ">" Alone; TIdent "Keyword"; TGroup Parenthesis [TIdent "Keyword"; TPunct ":" Joint; TPunct ":" Alone; TIdent "Public"]; TIdent "Keyword"; TGroup Parenthesis [TIdent "Keyword"; TPunct ":" Joint; TPunct ":" Alone; TIdent "Static"]; TIdent "Keyword"; TGroup Parenthesis [TIdent "Keyword"; TPunct ":" Joint; TPunct ":" Alone; TIdent "Void"]; TPunct "<" Alone; TIdent "ident"; TPunct ">" Alone; TPunct "<" Alone; TIdent "eq"; TPunct ">" Alone; TPunct "<" Alone; TIdent "literal"; TPunct ">" Alone; TPunct "<" Alone; TIdent "semicolon"; TPunct ">" Alone; TGroup Brace [TIdent "MainMethod"; TGroup Brace [TIdent "name"; TPunct ":" Alone; TPunct "#" Alone; TIdent "ident"; TPunct "." Alone; TIdent "name"; TPunct "," Alone; TIdent "value"; TPunct ":" Alone; TPunct "#" Alone; TIdent "literal"; TPunct "." Alone; TLiteral "0"]]; TPunct ";" Alone;
    TPunct "<" Alone; TIdent "ident"; TPunct ">" Joint; TPunct ":" Alone; TIdent "Ident"; TPunct "=" Joint; TPunct ">" Alone; TIdent "Ident"; TGroup Parenthesis [TIdent "Ident"; TGroup Brace [TIdent "spacing"; TPunct ":" Alone; TIdent "Spacing"; TPunct ":" Joint; TPunct ":" Alone; TIdent "Alone"; TPunct "," Alone; TPunct "." Joint; TPunct "." Alone]]; TPunct ";" Alone;
    TPunct "<" Alone; TIdent "eq"; TPunct ">" Alone; TPunct "=" Joint; TPunct ">" Alone; TIdent "Operator"; TGroup Parenthesis [TIdent "Operator"; TGroup Brace [TIdent "op"; TPunct ":" Alone; TIdent "Op"; TPunct ":" Joint; TPunct ":" Alone; TIdent "Eq"; TPunct "," Alone; TIdent "spacing"; TPunct ":" Alone; TIdent "Spacing"; TPunct ":" Joint; TPunct ":" Alone; TIdent "Joint"]]; TIdent "Operator"; TGroup Parenthesis [TIdent "Operator"; TGroup Brace [TIdent "op"; TPunct ":" Alone; TIdent "Op"; TPunct ":" Joint; TPunct ":" Alone; TIdent "Eq"; TPunct "," Alone; TIdent "spacing"; TPunct ":" Alone; TIdent "Spacing"; TPunct ":" Joint; TPunct ":" Alone; TIdent "Alone"]]; TPunct ";" Alone;
    TPunct "<" Alone; TIdent "semicolon"; TPunct ">" Alone; TPunct "=" Joint; TPunct ">" Alone; TIdent "Operator"; TGroup Parenthesis [TIdent "Operator"; TGroup Brace [TIdent "op"; TPunct ":" Alone; TIdent "Op"; TPunct ":" Joint; TPunct ":" Alone; TIdent "Semicolon"; TPunct "," Alone; TIdent "spacing"; TPunct ":" Alone; TIdent "Spacing"; TPunct ":" Joint; TPunct ":" Alone; TIdent "Alone"]]; TPunct ";" Alone;
    TPunct "<" Alone; TIdent "literal"; TPunct ">" Joint; TPunct ":" Alone; TIdent "Literal"; TPunct "=" Joint; TPunct ">" Alone; TIdent "Literal"; TGroup Parenthesis [TPunct "." Joint; TPunct "." Alone]; TPunct ";" Alone ].

(** tests/sanity_tests.rs:5-8 *)
Definition sanity_simple_input : list ttree :=
  [ TIdent "name"; TPunct ":" Alone; TIdent "TestSimple"; TPunct ";" Alone;
    TIdent "terminal"; TPunct ":" Alone; TIdent "char"; TPunct ";" Alone;
    TPunct "<" Alone; TIdent "S"; TPunct ">" Alone; TPunct "=" Joint; TPunct ">" Alone; TLiteral "'a'"; TPunct ";" Alone ].

(** tests/sanity_tests.rs:32-46 *)
Definition add_mul_input : list ttree :=
  [ TIdent "name"; TPunct ":" Alone; TIdent "AddMul"; TPunct ";" Alone;
    TIdent "terminal"; TPunct ":" Alone; TIdent "char"; TPunct ";" Alone;
    TPunct "<" Alone; TIdent "S"; TPunct ">" Joint; TPunct ":" Alone; TIdent "u32"; TPunct "=" Joint; TPunct ">" Alone; TPunct "<" Alone; TIdent "A"; TPunct ">" Alone; TGroup Brace [TPunct "#" Alone; TIdent "A"]; TPunct ";" Alone;
    TPunct "<" Alone; TIdent "A"; TPunct ">" Joint; TPunct ":" Alone; TIdent "u32"; TPunct "=" Joint; TPunct ">" Alone; TPunct "<" Alone; TIdent "A"; TPunct ">" Alone; TLiteral "'+'"; TPunct "<" Alone; TIdent "P"; TPunct ">" Alone; TGroup Brace [TPunct "#" Alone; TIdent "A"; TPunct "+" Alone; TPunct "#" Alone; TIdent "P"]; TPunct "|" Alone; TPunct "<" Alone; TIdent "P"; TPunct ">" Alone; TGroup Brace [TPunct "#" Alone; TIdent "P"]; TPunct ";" Alone;
    TPunct "<" Alone; TIdent "P"; TPunct ">" Joint; TPunct ":" Alone; TIdent "u32"; TPunct "=" Joint; TPunct ">" Alone; TPunct "<" Alone; TIdent "P"; TPunct ">" Alone; TLiteral "'*'"; TPunct "<" Alone; TIdent "V"; TPunct ">" Alone; TGroup Brace [TPunct "#" Alone; TIdent "P"; TPunct "*" Alone; TPunct "#" Alone; TIdent "V"]; TPunct "|" Alone; TPunct "<" Alone; TIdent "V"; TPunct ">" Alone; TGroup Brace [TPunct "#" Alone; TIdent "V"]; TPunct ";" Alone;
    TPunct "<" Alone; TIdent "V"; TPunct ">" Joint; TPunct ":" Alone; TIdent "u32"; TPunct "=" Joint; TPunct ">" Alone; TLiteral "'2'"; TGroup Brace [TLiteral "2"]; TPunct "|" Alone; TLiteral "'3'"; TGroup Brace [TLiteral "3"]; TPunct ";" Alone ].

(** tests/sanity_tests.rs:93-122 *)
Definition get_req_input : list ttree :=
  [ TIdent "name"; TPunct ":" Alone; TIdent "GetReq"; TPunct ";" Alone;
    TIdent "terminal"; TPunct ":" Alone; TIdent "char"; TPunct ";" Alone;
    TPunct "<" Alone; TIdent "root"; TPunct ">" Joint; TPunct ":" Alone; TIdent "Req"; TPunct "=" Joint; TPunct ">" Alone; TPunct "<" Alone; TIdent "req"; TPunct ">" Alone; TLiteral "' '"; TPunct "<" Alone; TIdent "uri"; TPunct ">" Alone; TGroup Brace [TIdent "Req"; TPunct ":" Joint; TPunct ":" Alone; TIdent "new"; TGroup Parenthesis [TPunct "#" Alone; TIdent "req"; TPunct "," Alone; TPunct "#" Alone; TIdent "uri"]]; TPunct ";" Alone;
    TPunct "<" Alone; TIdent "req"; TPunct ">" Joint; TPunct ":" Alone; TIdent "RequestType"; TPunct "=" Joint; TPunct ">" Alone; TLiteral "'G'"; TLiteral "'E'"; TLiteral "'T'"; TGroup Brace [TIdent "RequestType"; TPunct ":" Joint; TPunct ":" Alone; TIdent "Get"]; TPunct "|" Alone; TLiteral "'H'"; TLiteral "'E'"; TLiteral "'A'"; TLiteral "'D'"; TGroup Brace [TIdent "RequestType"; TPunct ":" Joint; TPunct ":" Alone; TIdent "Head"]; TPunct ";" Alone;
    TPunct "<" Alone; TIdent "uri"; TPunct ">" Joint; TPunct ":" Alone; TIdent "String"; TPunct "=" Joint; TPunct ">" Alone; TPunct "<" Alone; TIdent "absoluteURI"; TPunct ">" Alone; TGroup Brace [TPunct "#" Alone; TLiteral "0"]; TPunct ";" Alone;
    TPunct "<" Alone; TIdent "absoluteURI"; TPunct ">" Joint; TPunct ":" Alone; TIdent "String"; TPunct "=" Joint; TPunct ">" Alone; TLiteral "':'"; TPunct "<" Alone; TIdent "alphas"; TPunct ">" Alone; TGroup Brace [TPunct "#" Alone; TLiteral "0"; TPunct "." Alone; TIdent "to_string"; TGroup Parenthesis []; TPunct "+" Alone; TPunct "&" Joint; TPunct "#" Alone; TIdent "alphas"]; TPunct ";" Alone;
    TPunct "<" Alone; TIdent "alphas"; TPunct ">" Joint; TPunct ":" Alone; TIdent "String"; TPunct "=" Joint; TPunct ">" Alone; TPunct "<" Alone; TIdent "alphas"; TPunct ">" Alone; TPunct "<" Alone; TIdent "alpha"; TPunct ">" Alone; TGroup Brace [TPunct "#" Alone; TIdent "alphas"; TPunct "+" Alone; TPunct "&" Joint; TPunct "#" Alone; TIdent "alpha"; TPunct "." Alone; TIdent "to_string"; TGroup Parenthesis []]; TPunct "|" Alone; TPunct "<" Alone; TIdent "alpha"; TPunct ">" Alone; TGroup Brace [TPunct "#" Alone; TIdent "alpha"; TPunct "." Alone; TIdent "to_string"; TGroup Parenthesis []]; TPunct ";" Alone;
    TPunct "<" Alone; TIdent "alpha"; TPunct ">" Joint; TPunct ":" Alone; TIdent "char"; TPunct "=" Joint; TPunct ">" Alone; TLiteral "'a'"; TPunct "|" Alone; TLiteral "'b'"; TPunct "|" Alone; TLiteral "'c'"; TPunct "|" Alone; TLiteral "'d'"; TPunct "|" Alone; TLiteral "'e'"; TPunct "|" Alone; TLiteral "'f'"; TPunct "|" Alone; TLiteral "'g'"; TPunct "|" Alone; TLiteral "'h'"; TPunct "|" Alone; TLiteral "'i'"; TPunct "|" Alone; TLiteral "'j'"; TPunct "|" Alone; TLiteral "'k'"; TPunct "|" Alone; TLiteral "'l'"; TPunct "|" Alone; TLiteral "'m'"; TPunct "|" Alone; TLiteral "'n'"; TPunct "|" Alone; TLiteral "'o'"; TPunct "|" Alone; TLiteral "'p'"; TPunct "|" Alone; TLiteral "'q'"; TPunct "|" Alone; TLiteral "'r'"; TPunct "|" Alone; TLiteral "'s'"; TPunct "|" Alone; TLiteral "'t'"; TPunct "|" Alone; TLiteral "'u'"; TPunct "|" Alone; TLiteral "'v'"; TPunct "|" Alone; TLiteral "'w'"; TPunct "|" Alone; TLiteral "'x'"; TPunct "|" Alone; TLiteral "'y'"; TPunct "|" Alone; TLiteral "'z'"; TPunct "|" Alone; TLiteral "'A'"; TPunct "|" Alone; TLiteral "'B'"; TPunct "|" Alone; TLiteral "'C'"; TPunct "|" Alone; TLiteral "'D'"; TPunct "|" Alone; TLiteral "'E'"; TPunct "|" Alone; TLiteral "'F'"; TPunct "|" Alone; TLiteral "'G'"; TPunct "|" Alone; TLiteral "'H'"; TPunct "|" Alone; TLiteral "'I'"; TPunct "|" Alone; TLiteral "'J'"; TPunct "|" Alone; TLiteral "'K'"; TPunct "|" Alone; TLiteral "'L'"; TPunct "|" Alone; TLiteral "'M'"; TPunct "|" Alone; TLiteral "'N'"; TPunct "|" Alone; TLiteral "'O'"; TPunct "|" Alone; TLiteral "'P'"; TPunct "|" Alone; TLiteral "'Q'"; TPunct "|" Alone; TLiteral "'R'"; TPunct "|" Alone; TLiteral "'S'"; TPunct "|" Alone; TLiteral "'T'"; TPunct "|" Alone; TLiteral "'U'"; TPunct "|" Alone; TLiteral "'V'"; TPunct "|" Alone; TLiteral "'W'"; TPunct "|" Alone; TLiteral "'X'"; TPunct "|" Alone; TLiteral "'Y'"; TPunct "|" Alone; TLiteral "'Z'"; TPunct ";" Alone ].

(** tests/sanity_tests.rs:142-151 *)
Definition non_lalr_input : list ttree :=
  [ TIdent "name"; TPunct ":" Alone; TIdent "TestNonLALR"; TPunct ";" Alone;
    TIdent "terminal"; TPunct ":" Alone; TIdent "char"; TPunct ";" Alone;
    TPunct "<" Alone; TIdent "T"; TPunct ">" Joint; TPunct ":" Alone; TIdent "TestNonLALRPath"; TPunct "=" Joint; TPunct ">" Alone; TPunct "<" Alone; TIdent "S"; TPunct ">" Alone; TGroup Brace [TPunct "#" Alone; TIdent "S"]; TPunct ";" Alone;
    TPunct "<" Alone; TIdent "S"; TPunct ">" Joint; TPunct ":" Alone; TIdent "TestNonLALRPath"; TPunct "=" Joint; TPunct ">" Alone; TPunct "<" Alone; TIdent "A"; TPunct ">" Alone; TLiteral "'a'"; TGroup Brace [TIdent "TestNonLALRPath"; TPunct ":" Joint; TPunct ":" Alone; TIdent "C1"]; TPunct ";" Alone;
    TPunct "<" Alone; TIdent "S"; TPunct ">" Joint; TPunct ":" Alone; TIdent "TestNonLALRPath"; TPunct "=" Joint; TPunct ">" Alone; TLiteral "'b'"; TPunct "<" Alone; TIdent "A"; TPunct ">" Alone; TLiteral "'c'"; TGroup Brace [TIdent "TestNonLALRPath"; TPunct ":" Joint; TPunct ":" Alone; TIdent "C2"]; TPunct ";" Alone;
    TPunct "<" Alone; TIdent "S"; TPunct ">" Joint; TPunct ":" Alone; TIdent "TestNonLALRPath"; TPunct "=" Joint; TPunct ">" Alone; TPunct "<" Alone; TIdent "B"; TPunct ">" Alone; TLiteral "'c'"; TGroup Brace [TIdent "TestNonLALRPath"; TPunct ":" Joint; TPunct ":" Alone; TIdent "C3"]; TPunct ";" Alone;
    TPunct "<" Alone; TIdent "S"; TPunct ">" Joint; TPunct ":" Alone; TIdent "TestNonLALRPath"; TPunct "=" Joint; TPunct ">" Alone; TLiteral "'b'"; TPunct "<" Alone; TIdent "B"; TPunct ">" Alone; TLiteral "'a'"; TGroup Brace [TIdent "TestNonLALRPath"; TPunct ":" Joint; TPunct ":" Alone; TIdent "C4"]; TPunct ";" Alone;
    TPunct "<" Alone; TIdent "A"; TPunct ">" Alone; TPunct "=" Joint; TPunct ">" Alone; TLiteral "'d'"; TPunct ";" Alone;
    TPunct "<" Alone; TIdent "B"; TPunct ">" Alone; TPunct "=" Joint; TPunct ">" Alone; TLiteral "'d'"; TPunct ";" Alone ].



(** ** Constructors

    The body of a constructor is Rust code that the macro passes on, with the
    references to nodes replaced by variables.  What it evaluates to is given by
    its text: [rd_text] evaluates to [rd_value] of the variables [rd_vars]. *)
Section Readings.
Context {Raw Pay U UErr : Type}.
Notation value := (rval Raw Pay U).

Record reading := mk_reading {
  rd_text : list ttree;
  rd_vars : list string;
  rd_value : list (option value) -> option (value + UErr);
}.

Fixpoint same_tree (t t' : ttree) : bool :=
  match t, t' with
  | TGroup d ts, TGroup d' ts' =>
      (if eq_dec d d' then true else false) &&
      (fix same (l l' : list ttree) : bool :=
         match l, l' with
         | [], [] => true
         | x :: l, x' :: l' => same_tree x x' && same l l'
         | _, _ => false
         end) ts ts'
  | TPunct c s, TPunct c' s' => Ascii.eqb c c' && (if eq_dec s s' then true else false)
  | TIdent x, TIdent x' => String.eqb x x'
  | TLiteral x, TLiteral x' => String.eqb x x'
  | _, _ => false
  end.
Fixpoint same_text (l l' : list ttree) : bool :=
  match l, l' with
  | [], [] => true
  | x :: l, x' :: l' => same_tree x x' && same_text l l'
  | _, _ => false
  end.

Definition val_of {SErr} (v : option (rvalue Raw Pay U UErr SErr)) : option value :=
  match v with Some (VVal v) => Some v | _ => None end.

(** Bodies that are not listed, or variables that are not of the type they should
    have, do not occur; they give [RUnit]. *)
Definition read_body (table : list reading) {SErr} (_ : nat) (ts : list ttree) (e : string -> option (rvalue Raw Pay U UErr SErr)) : value + UErr :=
  match find (fun r => same_text (rd_text r) ts) table with
  | Some r => match rd_value r (map (fun x => val_of (e x)) (rd_vars r)) with Some v => v | None => inl RUnit end
  | None => inl RUnit
  end.

(** The variables of a constructor, as in [Spec.EmittedCode.arguments]. *)
Fixpoint args_of (vars : list (nat * value)) (x : string) : option (rvalue Raw Pay U UErr Empty_set) :=
  match vars with
  | [] => None
  | (i, v) :: vars' => if String.eqb x (argument_name i) then Some (VVal v) else args_of vars' x
  end.
Definition read_ctor (table : list reading) (i : nat) (body : list cbody) (vars : list (nat * value)) : value + UErr :=
  read_body table i (map body_text body) (args_of vars).
End Readings.
Arguments reading : clear implicits.

(** Pieces of bodies. *)
Definition v_ (i : nat) : ttree := TIdent (argument_name i).
Definition op (c : ascii) : ttree := TPunct c Alone.
Definition path2 (a b : string) : list ttree := [TIdent a; TPunct ":" Joint; TPunct ":" Alone; TIdent b].
Definition call (f : string) (args : list ttree) : list ttree := [TIdent f; TGroup Parenthesis args].
Definition method (f : string) (args : list ttree) : list ttree := TPunct "." Alone :: call f args.

(** The first variable. *)
Definition var0 {Raw Pay U UErr} : reading Raw Pay U UErr :=
  mk_reading [v_ 0] [argument_name 0] (fun vs => match vs with [Some v] => Some (inl v) | _ => None end).
Definition keep {Raw Pay U UErr} (_ : nat) (v : rval Raw Pay U) : rval Raw Pay U + UErr := inl v.

(** Characters are their code points; the value of a literal ['c']. *)
Definition char_literal (s : string) : N :=
  match s with
  | String _ (String c (String _ EmptyString)) => N_of_ascii c
  | _ => 0%N
  end.

(** ** tests/test_simple.rs and the grammar AddMul of tests/sanity_tests.rs *)

(** [u32], where arithmetic wraps around as in builds without overflow checks (with
    them, it panics instead). *)
Definition u32_size : N := 4294967296%N.
Definition wrap (n : N) : N := (n mod u32_size)%N.
Definition to_digit (c : N) : option N := if (48 <=? c)%N && (c <=? 57)%N then Some (c - 48)%N else None.

Definition u32_readings {UErr : Type} : list (reading N Empty_set N UErr) :=
  [ var0;
    (* test_simple.rs:12-13: #A + #P *)
    mk_reading [v_ 0; op "+"; v_ 2] [argument_name 0; argument_name 2]
      (fun vs => match vs with [Some (RUser a); Some (RUser b)] => Some (inl (RUser (wrap (a + b)))) | _ => None end);
    (* test_simple.rs:17-18: #P * #V *)
    mk_reading [v_ 0; op "*"; v_ 2] [argument_name 0; argument_name 2]
      (fun vs => match vs with [Some (RUser a); Some (RUser b)] => Some (inl (RUser (wrap (a * b)))) | _ => None end);
    (* test_simple.rs:22-23: 10 * #V + #dig.to_digit(10).unwrap() *)
    mk_reading ([TLiteral "10"; op "*"; v_ 0; op "+"; v_ 1] ++ method "to_digit" [TLiteral "10"] ++ method "unwrap" []) [argument_name 0; argument_name 1]
      (fun vs => match vs with
       | [Some (RUser a); Some (RTok (TRaw c))] => match to_digit c with Some d => Some (inl (RUser (wrap (wrap (10 * a) + d)))) | None => None end
       | _ => None
       end);
    (* test_simple.rs:24-25: #dig.to_digit(10).unwrap() *)
    mk_reading (v_ 0 :: method "to_digit" [TLiteral "10"] ++ method "unwrap" []) [argument_name 0]
      (fun vs => match vs with [Some (RTok (TRaw c))] => match to_digit c with Some d => Some (inl (RUser d)) | None => None end | _ => None end);
    (* sanity_tests.rs:46: 2 and 3 *)
    mk_reading [TLiteral "2"] [] (fun _ => Some (inl (RUser 2%N)));
    mk_reading [TLiteral "3"] [] (fun _ => Some (inl (RUser 3%N)));
    (* fallible_input_stream.rs:26-27: u32::from(#dig) - u32::from(b'0') *)
    mk_reading (path2 "u32" "from" ++ [TGroup Parenthesis [v_ 0]; op "-"] ++ path2 "u32" "from" ++ [TGroup Parenthesis [TLiteral "b'0'"]]) [argument_name 0]
      (fun vs => match vs with [Some (RTok (TRaw c))] => Some (inl (RUser (wrap (c + (u32_size - 48))))) | _ => None end) ].
Definition u32_rust : rust := mk_rust N Empty_set N Empty_set N.eq_dec char_literal (fun _ _ => false) (read_ctor u32_readings) keep.
(** With an error type, as in tests/fallible_input_stream.rs:6-15. *)
Definition u32_fallible : rust := mk_rust N Empty_set N string N.eq_dec char_literal (fun _ _ => false) (read_ctor u32_readings) keep.

(** ** tests/brainfck.rs: lines 10-20 [Instruction], by the names of its variants;
    55-57 [InstructionList], as the list of its instructions; 60-63 [with], 65-67
    [push], 69-71 [extend]. *)
Definition code_readings : list (reading unit Empty_set (list string) Empty_set) :=
  [ mk_reading [TIdent "InstructionList"; TGroup Brace ([TIdent "instructions"; op ":"] ++ path2 "Vec" "new" ++ [TGroup Parenthesis []])] []
      (fun _ => Some (inl (RUser [])));
    mk_reading (v_ 0 :: method "with" [v_ 1]) [argument_name 0; argument_name 1]
      (fun vs => match vs with [Some (RUser l); Some (RTok (TVariant n None))] => Some (inl (RUser (l ++ [n]))) | _ => None end);
    mk_reading (v_ 0 :: method "push" (path2 "Instruction" "OpenBracket") ++ [op ";"] ++
                v_ 0 :: method "extend" [v_ 2] ++ [op ";"] ++
                v_ 0 :: method "push" (path2 "Instruction" "CloseBracket") ++ [op ";"; v_ 0]) [argument_name 0; argument_name 2]
      (fun vs => match vs with
       | [Some (RUser l); Some (RUser l')] => Some (inl (RUser (l ++ ["OpenBracket"] ++ l' ++ ["CloseBracket"])))
       | _ => None
       end) ].
Definition code_rust : rust :=
  mk_rust unit Empty_set (list string) Empty_set (fun x y : unit => match x, y with tt, tt => left eq_refl end) (fun _ => tt) (fun _ _ => false) (read_ctor code_readings) keep.

(** ** tests/error_messages.rs: no constructors; tokens have a [usize] *)
Definition place_rust : rust :=
  mk_rust unit nat Empty_set Empty_set (fun x y : unit => match x, y with tt, tt => left eq_refl end) (fun _ => tt) (fun _ _ => false) (read_ctor []) keep.

(** ** tests/sanity_tests.rs: 76-92 [RequestType], [Req], and strings *)
Inductive request_type := Get | Head.
Inductive req_value := VReq (req_type : request_type) (uri : list N) | VType (t : request_type) | VString (s : list N).
(** [to_string] of a character or a string. *)
Definition to_string (v : rval N Empty_set req_value) : option (list N) :=
  match v with
  | RTok (TRaw c) => Some [c]
  | RUser (VString s) => Some s
  | _ => None
  end.
Definition req_readings : list (reading N Empty_set req_value Empty_set) :=
  [ var0;
    mk_reading (path2 "Req" "new" ++ [TGroup Parenthesis [v_ 0; op ","; v_ 2]]) [argument_name 0; argument_name 2]
      (fun vs => match vs with [Some (RUser (VType t)); Some (RUser (VString s))] => Some (inl (RUser (VReq t s))) | _ => None end);
    mk_reading (path2 "RequestType" "Get") [] (fun _ => Some (inl (RUser (VType Get))));
    mk_reading (path2 "RequestType" "Head") [] (fun _ => Some (inl (RUser (VType Head))));
    mk_reading (v_ 0 :: method "to_string" [] ++ [op "+"; TPunct "&" Joint; v_ 1]) [argument_name 0; argument_name 1]
      (fun vs => match vs with
       | [Some a; Some (RUser (VString b))] => match to_string a with Some a => Some (inl (RUser (VString (a ++ b)))) | None => None end
       | _ => None
       end);
    mk_reading ([v_ 0; op "+"; TPunct "&" Joint; v_ 1] ++ method "to_string" []) [argument_name 0; argument_name 1]
      (fun vs => match vs with
       | [Some (RUser (VString a)); Some b] => match to_string b with Some b => Some (inl (RUser (VString (a ++ b)))) | None => None end
       | _ => None
       end);
    mk_reading (v_ 0 :: method "to_string" []) [argument_name 0]
      (fun vs => match vs with [Some a] => match to_string a with Some a => Some (inl (RUser (VString a))) | None => None end | _ => None end) ].
Definition req_rust : rust := mk_rust N Empty_set req_value Empty_set N.eq_dec char_literal (fun _ _ => false) (read_ctor req_readings) keep.

(** tests/sanity_tests.rs:133-139 [TestNonLALRPath] *)
Definition path_readings : list (reading N Empty_set string Empty_set) :=
  var0 :: map (fun c => mk_reading (path2 "TestNonLALRPath" c) [] (fun _ => Some (inl (RUser c)))) ["C1"; "C2"; "C3"; "C4"].
Definition path_rust : rust := mk_rust N Empty_set string Empty_set N.eq_dec char_literal (fun _ _ => false) (read_ctor path_readings) keep.

(** ** tests/auto_into.rs:4-26, tests/fallible_ctor.rs:6-39, tests/into_error_type.rs:6-66:
    [A], [B], [AOrB], [Container] and conversions *)
Inductive into_value := VA (n : N) | VB (n : N) | VAOrB (v : into_value) | VContainer (n : N).
Definition too_big : string := "Value ""100"" cannot be greater than 9".
(** fallible_ctor.rs:27-39 and into_error_type.rs:47-64, for the values of the tests *)
Definition try_container (v : rval N Empty_set into_value) : rval N Empty_set into_value + string :=
  match v with
  | RUser (VA n) => if (n <? 10)%N then inl (RUser (VContainer n)) else inr too_big
  | _ => inl v
  end.
Definition into_readings : list (reading N Empty_set into_value string) :=
  let a n s := mk_reading (call "A" [TLiteral s]) [] (fun _ => Some (inl (RUser (VA n)))) in
  (* A(1).try_into()?, which converts an [A] to an [A] *)
  let a_into n s := mk_reading (call "A" [TLiteral s] ++ method "try_into" [] ++ [op "?"]) [] (fun _ => Some (inl (RUser (VA n)))) in
  (* Container::try_from_a(A(1))? *)
  let from_a n s := mk_reading (path2 "Container" "try_from_a" ++ [TGroup Parenthesis (call "A" [TLiteral s]); op "?"]) []
    (fun _ => Some (try_container (RUser (VA n)))) in
  [ a 1%N "1"; a 100%N "100"; a_into 1%N "1"; a_into 100%N "100"; from_a 1%N "1"; from_a 100%N "100";
    mk_reading (call "B" [TLiteral "2"]) [] (fun _ => Some (inl (RUser (VB 2%N)))) ].
(** auto_into.rs:16-26: the rules 1 and 2 convert to [AOrB] *)
Definition into_rust : rust := mk_rust N Empty_set into_value string N.eq_dec char_literal (fun _ _ => false) (read_ctor into_readings)
  (fun _ v => match v with RUser (VA n) => inl (RUser (VAOrB (VA n))) | RUser (VB n) => inl (RUser (VAOrB (VB n))) | _ => inl v end).
Definition container_rust : rust := mk_rust N Empty_set into_value string N.eq_dec char_literal (fun _ _ => false) (read_ctor into_readings) (fun _ v => try_container v).

(** ** tests/token_pattern.rs:4-40 and tests/disjoint_token_pattern.rs:4-13: the types
    of tokens *)
Inductive op_kind := Eq | Semicolon.
Inductive keyword := Public | Static | Void.
Inductive java_field :=
| FKeyword (k : keyword)
| FIdent (name : string) (s : spacing)
| FLiteral (text : string)
| FOperator (o : op_kind) (s : spacing).
Definition main_readings : list (reading unit java_field (string * string) Empty_set) :=
  [ mk_reading [TIdent "MainMethod"; TGroup Brace [TIdent "name"; op ":"; v_ 3; op "."; TIdent "name"; op ","; TIdent "value"; op ":"; v_ 5; op "."; TLiteral "0"]]
      [argument_name 3; argument_name 5]
      (fun vs => match vs with [Some (RPay (FIdent n _)); Some (RPay (FLiteral t))] => Some (inl (RUser (n, t))) | _ => None end) ].

(** The meaning of the patterns in the tests, by their text: the macro keeps a
    pattern as printed by [print]. *)
Section Patterns.
Variable print : list ttree -> string.
Definition look_up {A} (table : list (list ttree * (A -> bool))) (s : string) (a : A) : bool :=
  match find (fun e => String.eqb (print (fst e)) s) table with Some e => snd e a | None => false end.
Definition spacing_is (s s' : spacing) : bool := if eq_dec s s' then true else false.

(** token_pattern.rs:55-64 *)
Definition operator_pattern (o s : string) : list ttree :=
  [TIdent "Operator"; TGroup Brace ([TIdent "op"; op ":"] ++ path2 "Op" o ++ [op ","; TIdent "spacing"; op ":"] ++ path2 "Spacing" s)].
Definition java_patterns : list (list ttree * (java_field -> bool)) :=
  [ (path2 "Keyword" "Public", fun f => match f with FKeyword Public => true | _ => false end);
    (path2 "Keyword" "Static", fun f => match f with FKeyword Static => true | _ => false end);
    (path2 "Keyword" "Void", fun f => match f with FKeyword Void => true | _ => false end);
    ([TIdent "Ident"; TGroup Brace ([TIdent "spacing"; op ":"] ++ path2 "Spacing" "Alone" ++ [op ","; TPunct "." Joint; op "."])],
     fun f => match f with FIdent _ s => spacing_is s Alone | _ => false end);
    (operator_pattern "Eq" "Joint", fun f => match f with FOperator Eq s => spacing_is s Joint | _ => false end);
    (operator_pattern "Eq" "Alone", fun f => match f with FOperator Eq s => spacing_is s Alone | _ => false end);
    (operator_pattern "Semicolon" "Alone", fun f => match f with FOperator Semicolon s => spacing_is s Alone | _ => false end) ].
Definition java_rust : rust := mk_rust unit java_field (string * string) Empty_set
  (fun x y : unit => match x, y with tt, tt => left eq_refl end) (fun _ => tt) (look_up java_patterns) (read_ctor main_readings) keep.

(** disjoint_token_pattern.rs:20-21; a field is the pair of [field1] and [field2] *)
Definition range_patterns : list (list ttree * (N * N -> bool)) :=
  let pattern a b rest := [TIdent "A"; TGroup Brace ([TIdent "field1"; op ":"; TLiteral a; TPunct "." Joint; op "."; TLiteral b; op ","; TIdent "field2"; op ":"] ++ rest)] in
  [ (pattern "0" "10" [TIdent "_"], fun f => (fst f <? 10)%N);
    (pattern "5" "12" [TLiteral "100"], fun f => (5 <=? fst f)%N && (fst f <? 12)%N && (snd f =? 100)%N) ].
Definition range_rust : rust := mk_rust unit (N * N) Empty_set Empty_set
  (fun x y : unit => match x, y with tt, tt => left eq_refl end) (fun _ => tt) (look_up range_patterns) (read_ctor []) keep.
End Patterns.
