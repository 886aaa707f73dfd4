(** Model of lr_table/src/grammar.rs:67-106, [Grammar::from_grammar_str].  A
    [&str] is the list of its bytes.  The functions of the standard library used
    are modelled for text in which all whitespace is ASCII ([trim] also removes
    other Unicode whitespace). *)
From Coq Require Import Arith Bool Ascii List.
From Verif Require Import Base.Prelude Spec.Grammar.
Import ListNotations.

Definition text := list ascii.

#[global] Instance EqDec_text : EqDec text := list_eq_dec ascii_dec.

(** The error messages of lines 75, 78 and 95. *)
Inductive str_error :=
| MissingArrow (line : text)
| LabelNotUppercase (production : text)
| InvalidNode (node : text).

(** [char::is_whitespace] *)
Definition is_whitespace (c : ascii) : bool :=
  let n := nat_of_ascii c in ((9 <=? n) && (n <=? 13)) || (n =? 32).

(** [u8::is_ascii_whitespace], which leaves out the vertical tab. *)
Definition is_ascii_whitespace (c : ascii) : bool :=
  let n := nat_of_ascii c in is_whitespace c && negb (n =? 11).

(** [char::is_ascii_uppercase] *)
Definition is_ascii_uppercase (c : ascii) : bool :=
  let n := nat_of_ascii c in (65 <=? n) && (n <=? 90).

(** [u8::is_ascii] *)
Definition is_ascii (c : ascii) : bool := nat_of_ascii c <? 128.

(** [str::trim] *)
Fixpoint trim_start (s : text) : text :=
  match s with
  | c :: s' => if is_whitespace c then trim_start s' else s
  | [] => []
  end.
Definition trim (s : text) : text := rev (trim_start (rev (trim_start s))).

(** [str::lines]: a line ends before [\n] or [\r\n]; there is no empty line
    after the last [\n].  [cur] is the line so far, reversed. *)
Definition newline : ascii := ascii_of_nat 10.
Definition return_char : ascii := ascii_of_nat 13.

Fixpoint lines_from (cur : text) (s : text) : list text :=
  match s with
  | [] => match cur with [] => [] | _ => [rev cur] end
  | c :: s' =>
      if ascii_dec c newline then
        rev (match cur with
             | c' :: cur' => if ascii_dec c' return_char then cur' else cur
             | [] => []
             end) :: lines_from [] s'
      else lines_from (c :: cur) s'
  end.
Definition lines (s : text) : list text := lines_from [] s.

(** [str::split_once("->")] *)
Fixpoint split_once_arrow (s : text) : option (text * text) :=
  match s with
  | [] => None
  | c :: s' =>
      match s' with
      | c' :: rest =>
          if ascii_dec c "-" then
            if ascii_dec c' ">" then Some ([], rest)
            else option_map (fun '(p, r) => (c :: p, r)) (split_once_arrow s')
          else option_map (fun '(p, r) => (c :: p, r)) (split_once_arrow s')
      | [] => None
      end
  end.

(** [str::split_ascii_whitespace]; [cur] is the word so far, reversed. *)
Definition finish_word (cur : text) (ws : list text) : list text :=
  match cur with [] => ws | _ => rev cur :: ws end.
Fixpoint words_from (cur : text) (s : text) : list text :=
  match s with
  | [] => finish_word cur []
  | c :: s' =>
      if is_ascii_whitespace c then finish_word cur (words_from [] s')
      else words_from (c :: cur) s'
  end.
Definition split_ascii_whitespace (s : text) : list text := words_from [] s.

(** grammar.rs:86-99 *)
Definition parse_node (word : text) : outcome str_error (node ascii text) :=
  if eqb word ["!"%char] then Ok (Terminal Epsilon)
  else if forallb is_ascii_uppercase word then Ok (Production word)
  else match word with
       | [c] => if is_ascii c then Ok (Terminal (Token c)) else Err (InvalidNode word)
       | _ => Err (InvalidNode word)
       end.

(** grammar.rs:72-102 *)
Definition parse_line (line : text) : outcome str_error (rule ascii text) :=
  match split_once_arrow line with
  | None => Err (MissingArrow line)
  | Some (production, rule) =>
      let production := trim production in
      if negb (forallb is_ascii_uppercase production) then Err (LabelNotUppercase production)
      else
        nodes <- mapM parse_node (split_ascii_whitespace (trim rule)) ;;
        Ok (mk_rule production nodes)
  end.

(** grammar.rs:68-105 *)
Definition from_grammar_str (grammar_str : text) : outcome str_error (grammar ascii text) :=
  mapM parse_line (lines grammar_str).
