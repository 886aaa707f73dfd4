(** Which symbols of the input of [grammar!] are looked at before they are read.

    These are the ones that [SymbolStream] keeps the span of, for errors at the
    end of the input (symbol_stream.rs:68-75). *)
From Coq Require Import Arith Bool String Ascii List.
From Verif Require Import Base.Prelude Model.TokenTree Model.Symbol Model.Diagnostics Spec.Macro Spec.Diagnostics.
Import ListNotations.
Open Scope string_scope.
Open Scope list_scope.

(** Regular expressions with two kinds of symbols. *)
Inductive lrx :=
| LRead (p : symbol_t -> Prop)
| LLook (p : symbol_t -> Prop)
| LEmpty
| LSeq (r1 r2 : lrx)
| LAlt (r1 r2 : lrx)
| LStar (r : lrx).

(** The symbols that are looked at are marked. *)
Inductive marked : lrx -> list (symbol_t * bool) -> Prop :=
| k_read (p : symbol_t -> Prop) x : p x -> marked (LRead p) [(x, false)]
| k_look (p : symbol_t -> Prop) x : p x -> marked (LLook p) [(x, true)]
| k_empty : marked LEmpty []
| k_seq r1 r2 xs ys : marked r1 xs -> marked r2 ys -> marked (LSeq r1 r2) (xs ++ ys)
| k_left r1 r2 xs : marked r1 xs -> marked (LAlt r1 r2) xs
| k_right r1 r2 xs : marked r2 xs -> marked (LAlt r1 r2) xs
| k_star_nil r : marked (LStar r) []
| k_star_cons r xs ys : marked r xs -> marked (LStar r) ys -> marked (LStar r) (xs ++ ys).

(** Without the marks. *)
Fixpoint plain (r : lrx) : rx :=
  match r with
  | LRead p | LLook p => RSym p
  | LEmpty => REmpty
  | LSeq r1 r2 => RSeq (plain r1) (plain r2)
  | LAlt r1 r2 => RAlt (plain r1) (plain r2)
  | LStar r => RStar (plain r)
  end.

Definition lseq_of (rs : list lrx) : lrx := fold_right LSeq LEmpty rs.
Definition lop (o : operator) : lrx := LRead (eq (SOp o)).
Definition lmaybe (r : lrx) : lrx := LAlt LEmpty r.
Definition l_ident : lrx := LRead (fun t => exists n, t = SIdent n).

(** The first symbol of a type is read at once, the others are not. *)
Definition l_type : lrx := LSeq (LRead (fun _ => True)) (LStar (LLook in_type)).
Definition l_option (keyword : lrx) (value : lrx) : lrx := lseq_of [keyword; lop Colon; value; lop Semicolon].
Definition l_ref : lrx := lseq_of [lop BeginProd; l_ident; lop EndProd].
Definition l_node : lrx :=
  LAlt l_ref (LAlt (LRead (fun t => exists s, t = SLiteral s))
    (LAlt (LSeq l_ident (lmaybe (LLook (fun t => exists ts, t = SParen ts)))) (lop Bang))).
Definition l_alternative : lrx :=
  LSeq l_node (LSeq (LStar l_node) (lmaybe (LLook (fun t => exists d ts, t = SGroup d ts)))).
Definition l_alternatives : lrx := LSeq l_alternative (LStar (LSeq (lop Pipe) l_alternative)).
Definition l_declaration : lrx :=
  lseq_of [l_ref; lmaybe (LSeq (LLook (eq (SOp Colon))) l_type); lop Arrow; l_alternatives; lop Semicolon].
Definition l_file : lrx :=
  lseq_of [l_option (LRead (eq (SIdent "name"))) l_ident;
           LAlt (l_option (LRead (eq (SIdent "terminal"))) l_type) (l_option (LRead (eq (SIdent "enum_terminal"))) l_type);
           LAlt (LSeq (l_option (LLook (eq (SIdent "error_type"))) l_type) (LStar l_declaration))
                (LSeq l_declaration (LStar l_declaration))].

(** The same syntax as in [Spec.Diagnostics]. *)
Lemma plain_file : plain l_file = a_file.
Proof. reflexivity. Qed.

Section Spans.
Context {span : Type} (call_site : span).

(** Symbols with marks. *)
Definition word := list (symbol_at span * bool).
Definition marks (w : word) : list (symbol_t * bool) := map (fun z => (at_type span (fst z), snd z)) w.

(** The span of the last one that is marked. *)
Definition last_looked (w : word) : span := last (map (fun z => span_of (fst z)) (filter snd w)) call_site.
End Spans.
