(** How a printed table is read. *)
From Coq Require Import Arith Bool String Ascii List Sorted.
From Verif Require Import Base.Prelude Spec.Grammar Model.Vocabulary Model.LRTable.
Import ListNotations.
Open Scope string_scope.
Open Scope nat_scope.

(** The lines of a text, the words of a line, and where the words begin, counted
    in characters. *)
Definition end_of_line : ascii := ascii_of_nat 10.
Fixpoint lines (s : string) : list string :=
  match s with
  | EmptyString => [""]
  | String c s' =>
      if ascii_dec c end_of_line then "" :: lines s'
      else match lines s' with l :: ls => String c l :: ls | [] => [String c ""] end
  end.

Definition space : ascii := " "%char.
Definition spaced (s : string) : bool :=
  match s with EmptyString => true | String c _ => if ascii_dec c space then true else false end.
Fixpoint words (s : string) : list string :=
  match s with
  | EmptyString => []
  | String c s' =>
      if ascii_dec c space then words s'
      else if spaced s' then String c "" :: words s'
      else match words s' with w :: ws => String c w :: ws | [] => [] end
  end.

(** In UTF-8 the bytes from 128 to 191 continue a character. *)
Definition continues (c : ascii) : Prop := 128 <= nat_of_ascii c <= 191.
Definition continues_dec c : {continues c} + {~ continues c}.
Proof. unfold continues. destruct (le_dec 128 (nat_of_ascii c)), (le_dec (nat_of_ascii c) 191); [left; auto|right; tauto..]. Defined.
Fixpoint starts_from (after_space : bool) (i : nat) (s : string) : list nat :=
  match s with
  | EmptyString => []
  | String c s' =>
      let i' := if continues_dec c then i else S i in
      if ascii_dec c space then starts_from true i' s'
      else (if after_space then [i] else []) ++ starts_from false i' s'
  end.
Definition starts (line : string) : list nat := starts_from true 0 line.

(** [s] is the decimal numeral of [n]. *)
Fixpoint value (acc : nat) (s : string) : nat :=
  match s with
  | EmptyString => acc
  | String c s' => value (10 * acc + (nat_of_ascii c - 48)) s'
  end.
Definition is_digit (c : ascii) : Prop := 48 <= nat_of_ascii c <= 57.
Definition numeral (n : nat) (s : string) : Prop :=
  s <> "" /\ Forall is_digit (list_ascii_of_string s) /\ value 0 s = n /\ (forall s', s = String "0" s' -> s' = "").

(** What the words say. *)
Inductive action_word : option action -> string -> Prop :=
| aw_none : action_word None "_"
| aw_shift s w : numeral s w -> action_word (Some (Shift s)) (String "s" w)
| aw_reduce j w : numeral j w -> action_word (Some (Reduce j)) (String "r" w)
| aw_accept : action_word (Some Accept) "acc".

Inductive goto_word : option nat -> string -> Prop :=
| gw_none : goto_word None "_"
| gw_goto s w : numeral s w -> goto_word (Some s) ("GO(" ++ w ++ ")").

Inductive token_word : aug nat -> string -> Prop :=
| tw_token n w : numeral n w -> token_word (Token n) w
| tw_epsilon : token_word Epsilon "ε"
| tw_end : token_word EndOfStream "$".

Section Rows.
Context {bm : BuildMode}.
Variable t : lr_table.

(** The tokens with an action in some state, in the order of their ids;
    [vocab_size] bounds the ids. *)
Definition column_tokens (vocab_size : nat) (cs : list (aug nat)) : Prop :=
  StronglySorted (fun a b => label_id a < label_id b) cs /\
  forall a, In a cs <-> label_id a < vocab_size /\
    exists s act, s < num_states t /\ get_action (E := unit) t s a = Ok (Some act).

(** The words in the row of state [s]. *)
Definition row_words (labels : nat) (cs : list (aug nat)) (s : nat) (row : string) : Prop :=
  exists n acts gotos wa wg, numeral s n /\
    Forall2 (fun a o => get_action (E := unit) t s a = Ok o) cs acts /\ Forall2 action_word acts wa /\
    Forall2 (fun k o => get_goto (E := unit) t s k = Ok o) (seq 0 labels) gotos /\ Forall2 goto_word gotos wg /\
    words row = ((n ++ ":")%string :: wa ++ ":"%string :: wg)%list.

(** The text is a header and a row for each state. *)
Definition shows_table (vocab_size labels : nat) (text : string) : Prop :=
  exists cs header rows, column_tokens vocab_size cs /\ lines text = header :: rows /\ Forall2 token_word cs (words header) /\
    List.length rows = num_states t /\ forall s row, nth_error rows s = Some row -> row_words labels cs s row.
End Rows.

(** In every column the words begin at the same place, but for the numbers of
    the states in front. *)
Definition aligned (text : string) : Prop :=
  forall header rows row row', lines text = header :: rows -> In row rows -> In row' rows ->
  tl (starts row) = tl (starts row') /\ starts header = firstn (List.length (starts header)) (tl (starts row)).
