(** Which text spells which grammar. *)
From Coq Require Import Arith Bool Ascii List.
From Verif Require Import Base.Prelude Spec.Grammar Model.GrammarStr.
Import ListNotations.

Definition code_in (lo hi : nat) (c : ascii) : Prop := lo <= nat_of_ascii c <= hi.

(** White space: tab, newline, vertical tab, form feed, carriage return, space.
    A vertical tab does not separate nodes. *)
Definition space (c : ascii) : Prop := code_in 9 13 c \/ c = " "%char.
Definition separator (c : ascii) : Prop := space c /\ nat_of_ascii c <> 11.
Definition upper (c : ascii) : Prop := code_in 65 90 c.

Definition arrow : text := ["-"%char; ">"%char].

(** A text without white space at either end. *)
Definition trimmed (s : text) : Prop :=
  (forall c s', s = c :: s' -> ~ space c) /\ (forall c s', s = s' ++ [c] -> ~ space c).

(** How a node is written. *)
Inductive node_text : node ascii text -> text -> Prop :=
| node_epsilon : node_text (Terminal Epsilon) ["!"%char]
| node_label l : l <> [] -> Forall upper l -> node_text (Production l) l
| node_token c : nat_of_ascii c < 128 -> ~ upper c -> c <> "!"%char -> node_text (Terminal (Token c)) [c].

(** [s] consists of the words [ws], with separators between them. *)
Definition word (w : text) : Prop := w <> [] /\ Forall (fun c => ~ separator c) w.
Inductive word_list : text -> list text -> Prop :=
| words_none : word_list [] []
| words_one w : word w -> word_list w [w]
| words_more w seps s w' ws : word w -> seps <> [] -> Forall separator seps -> word_list s (w' :: ws) ->
    word_list (w ++ seps ++ s) (w :: w' :: ws).

(** A line: label, arrow and the words of its nodes. *)
Definition line_parts (line label : text) (ws : list text) : Prop :=
  exists s1 s2 s3 body s4, line = s1 ++ label ++ s2 ++ arrow ++ s3 ++ body ++ s4 /\
    Forall space (s1 ++ s2 ++ s3 ++ s4) /\ Forall upper label /\ trimmed body /\ word_list body ws.

Definition rule_text (line : text) (r : rule ascii text) : Prop :=
  exists ws, line_parts line (symbol r) ws /\ Forall2 node_text (rhs r) ws.

(** The lines of a text. *)
Definition newline_free (s : text) : Prop := ~ In newline s.
Inductive line_list : text -> list text -> Prop :=
| lines_none : line_list [] []
| lines_last l : l <> [] -> newline_free l -> line_list l [l]
| lines_more l s ls : newline_free l -> (forall l', l <> l' ++ [return_char]) -> line_list s ls ->
    line_list (l ++ newline :: s) (l :: ls)
| lines_more_cr l s ls : newline_free l -> line_list s ls ->
    line_list (l ++ return_char :: newline :: s) (l :: ls).

Definition spells (s : text) (g : grammar ascii text) : Prop :=
  exists ls, line_list s ls /\ Forall2 rule_text ls g.

(** What is wrong with a line. *)
Inductive bad_line : text -> str_error -> Prop :=
| bad_no_arrow line : (forall p r, line <> p ++ arrow ++ r) -> bad_line line (MissingArrow line)
| bad_label s1 label s2 r : Forall space (s1 ++ s2) -> trimmed label -> ~ Forall upper label ->
    (forall p r', s1 ++ label ++ s2 ++ arrow ++ r = p ++ arrow ++ r' -> length (s1 ++ label ++ s2) <= length p) ->
    bad_line (s1 ++ label ++ s2 ++ arrow ++ r) (LabelNotUppercase label)
| bad_node line label ws ns w ws' : line_parts line label (ws ++ w :: ws') -> Forall2 node_text ns ws ->
    (forall n, ~ node_text n w) -> bad_line line (InvalidNode w).

(** What is wrong with the first bad line of a text. *)
Definition bad_text (s : text) (e : str_error) : Prop :=
  exists ls rs l ls', line_list s (ls ++ l :: ls') /\ Forall2 rule_text ls rs /\ bad_line l e.

(** A plain way to write a grammar. *)
Definition show_node (n : node ascii text) : text :=
  match n with
  | Terminal (Token c) => [c]
  | Terminal _ => ["!"%char]
  | Production l => l
  end.
Definition show_rule (r : rule ascii text) : text :=
  symbol r ++ " "%char :: arrow ++ flat_map (fun n => " "%char :: show_node n) (rhs r).
Definition show_grammar (g : grammar ascii text) : text := flat_map (fun r => show_rule r ++ [newline]) g.

(** The grammars that can be written. *)
Definition writable (g : grammar ascii text) : Prop :=
  Forall (fun r => Forall upper (symbol r) /\ Forall (fun n =>
    match n with
    | Terminal (Token c) => nat_of_ascii c < 128 /\ ~ upper c /\ c <> "!"%char /\ ~ space c
    | Terminal Epsilon => True
    | Terminal EndOfStream => False
    | Production l => l <> [] /\ Forall upper l
    end) (rhs r)) g.
