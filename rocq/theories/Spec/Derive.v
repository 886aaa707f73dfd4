(** Implementations of traits as they are written in Rust, and those that the
    derive macro [ParserUserError] should write. *)
From Coq Require Import String Ascii List.
From Verif Require Import Base.Prelude Model.TokenTree Model.DeriveUserError.
Import ListNotations.
Open Scope string_scope.
Open Scope char_scope.
Open Scope list_scope.

(** [<a, b>], and nothing if there is nothing to list. *)
Definition angled (args : list (list ttree)) : list ttree :=
  match args with
  | [] => []
  | _ => TPunct "<" Alone :: flat_map (fun a => a ++ [TPunct "," Alone]) args ++ [TPunct ">" Alone]
  end.

(** [impl<params> path for ty { body }] *)
Record trait_impl := mk_impl { im_params : list (list ttree); im_trait : list ttree; im_type : list ttree; im_body : list ttree }.
Definition impl_tokens (i : trait_impl) : list ttree :=
  TIdent "impl" :: angled (im_params i) ++ im_trait i ++ [TIdent "for"] ++ im_type i ++ [TGroup Brace (im_body i)].

(** The type that was declared: its name with all of its parameters. *)
Definition declared_type (d : derive_input) : list ttree := TIdent (di_ident d) :: angled (map gp_use (di_params d)).
Definition declared_params (d : derive_input) : list (list ttree) := map gp_declaration (di_params d).

Definition infallible : list ttree := rooted ["std"; "convert"; "Infallible"]%string.

(** [fn from(value: Infallible) -> Self { match value {} }] *)
Definition from_infallible : list ttree :=
  [TIdent "fn"; TIdent "from"; TGroup Parenthesis (TIdent "value" :: TPunct ":" Alone :: infallible);
   TPunct "-" Joint; TPunct ">" Alone; TIdent "Self"; TGroup Brace [TIdent "match"; TIdent "value"; TGroup Brace []]].

(** What [ParserUserError: Error + From<Infallible> + Clone] needs beyond
    [Error] and [Clone], which are the user's. *)
Definition user_error_impls (d : derive_input) : list trait_impl :=
  [mk_impl (declared_params d) (TIdent "From" :: TPunct "<" Alone :: infallible ++ [TPunct ">" Alone]) (declared_type d) from_infallible;
   mk_impl (declared_params d) (rooted ["parser_generator"; "error"; "ParserUserError"]%string) (declared_type d) []].
