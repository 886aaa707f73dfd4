(** Model of the derive macro [ParserUserError], parser-user-error/src/lib.rs.
    The macro reads its input with syn ([DeriveInput]); that is trusted, and of
    its result only what a type is declared with is kept.  Spans are omitted. *)
From Coq Require Import String Ascii List.
From Verif Require Import Base.Prelude Model.TokenTree.
Import ListNotations.
Open Scope string_scope.
Open Scope char_scope.
Open Scope list_scope.

(** syn::DeriveInput: the name of the type and its generic parameters, each
    with the tokens it is declared and referred to by (e.g. [const N: usize] and
    [N]); attributes, visibility, where-clause and fields are omitted. *)
Record generic_param := mk_param { gp_declaration : list ttree; gp_use : list ttree }.
Record derive_input := mk_derive_input { di_ident : string; di_params : list generic_param }.

(** Tokens of paths and of types with arguments. *)
Definition colons : list ttree := [TPunct ":" Joint; TPunct ":" Alone].
Definition rooted (path : list string) : list ttree := flat_map (fun n => colons ++ [TIdent n]) path.

(** parser-user-error/src/lib.rs:6-17 *)
Definition build_user_error_impl (input : derive_input) : list ttree :=
  let ident := TIdent (di_ident input) in
  let infallible := rooted ["std"; "convert"; "Infallible"]%string in
  [TIdent "impl"; TIdent "From"; TPunct "<" Alone] ++ infallible ++ [TPunct ">" Alone; TIdent "for"; ident;
    TGroup Brace
      [TIdent "fn"; TIdent "from"; TGroup Parenthesis ([TIdent "value"; TPunct ":" Alone] ++ infallible);
       TPunct "-" Joint; TPunct ">" Alone; TIdent "Self";
       TGroup Brace [TIdent "match"; TIdent "value"; TGroup Brace []]]] ++
  [TIdent "impl"] ++ rooted ["parser_generator"; "error"; "ParserUserError"]%string ++ [TIdent "for"; ident; TGroup Brace []].

(** parser-user-error/src/lib.rs:19-25 *)
Definition derive_parser_user_error (input : derive_input) : list ttree := build_user_error_impl input.
