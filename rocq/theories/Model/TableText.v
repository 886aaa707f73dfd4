(** Model of the [Display] implementations that print an [LRTable]:
    lr_table/src/lr_table.rs:48-56, 73-77, 352-358, 415-499 and
    vocabulary.rs:18-22, 68-76.  Writing to a string does not fail, so the
    results of [write!] are omitted. *)
From Coq Require Import Arith Bool String Ascii NArith List.
From Verif Require Import Base.Prelude Spec.Grammar Model.BitSet Model.Vocabulary Model.LRTable.
Import ListNotations.
Open Scope string_scope.
Open Scope nat_scope.

(** [Display] of usize: decimal digits. *)
Definition digit (n : nat) : ascii := ascii_of_nat (48 + n mod 10).
Fixpoint decimal_from (fuel n : nat) : string :=
  match fuel with
  | O => String (digit n) ""
  | S fuel' => if n <? 10 then String (digit n) "" else decimal_from fuel' (n / 10) ++ String (digit n) ""
  end.
Definition decimal (n : nat) : string := decimal_from n n.

(** Strings are byte strings; padding counts characters, that is, all bytes but
    the continuation bytes of UTF-8. *)
Definition continuation (c : ascii) : bool := let n := nat_of_ascii c in (128 <=? n) && (n <? 192).
Fixpoint char_count (s : string) : nat :=
  match s with
  | EmptyString => 0
  | String c s' => (if continuation c then 0 else 1) + char_count s'
  end.

Fixpoint spaces (n : nat) : string := match n with O => "" | S n' => String " " (spaces n') end.

(** [format!("{:width$}", s)] of a string, and [{:>width$}]. *)
Definition pad_right (width : nat) (s : string) : string := s ++ spaces (width - char_count s).
Definition pad_left (width : nat) (s : string) : string := spaces (width - char_count s) ++ s.

(** [Itertools::join] *)
Fixpoint join (sep : string) (l : list string) : string :=
  match l with
  | [] => ""
  | [x] => x
  | x :: l' => x ++ sep ++ join sep l'
  end.

(** [Iterator::max] with [unwrap_or] *)
Definition max_or (default : nat) (l : list nat) : nat :=
  match l with
  | [] => default
  | x :: l' => fold_left Nat.max l' x
  end.

(** [Itertools::chunks]: panics if the size is zero. *)
Fixpoint chunks_from {A} (n size : nat) (l : list A) : list (list A) :=
  match n, l with
  | S n', _ :: _ => firstn size l :: chunks_from n' size (skipn size l)
  | _, _ => []
  end.
Definition chunks {E A} (size : nat) (l : list A) : outcome E (list (list A)) :=
  if size =? 0 then Panic "assertion failed: size != 0" else Ok (chunks_from (List.length l) size l).

(** lr_table.rs:48-56 *)
Definition show_action (a : action) : string :=
  match a with
  | Shift next_state => "s" ++ decimal next_state
  | Reduce rule => "r" ++ decimal rule
  | Accept => "acc"
  end.

(** lr_table.rs:73-77 *)
Definition show_goto (state : nat) : string := "GO(" ++ decimal state ++ ")".

(** vocabulary.rs:18-22, 68-76; the letter epsilon is two bytes. *)
Definition epsilon_letter : string := String (ascii_of_nat 206) (String (ascii_of_nat 181) "").
Definition show_token_id (a : aug nat) : string :=
  match a with
  | Token t => decimal t
  | Epsilon => epsilon_letter
  | EndOfStream => "$"
  end.

Definition newline_text : string := String (ascii_of_nat 10) "".

Section Display.
Context {bm : BuildMode} {E : Type}.

(** lr_table.rs:352-354 *)
Definition actions_iter (t : lr_table) : outcome E (list (list (option action))) :=
  vs <- table_vocab_size t ;; chunks vs (action_table t).

(** lr_table.rs:356-358 *)
Definition gotos_iter (t : lr_table) : outcome E (list (list (option nat))) :=
  nl <- num_production_labels t ;; chunks nl (goto_table t).

(** lr_table.rs:424-431: the actions of one state, numbered from [i]. *)
Fixpoint scan_actions (i : nat) (actions : list (option action)) (st : bitset * nat) : outcome E (bitset * nat) :=
  match actions with
  | [] => Ok st
  | None :: actions' => scan_actions (S i) actions' st
  | Some a :: actions' =>
      vocab <- bs_set (fst st) i ;;
      scan_actions (S i) actions' (vocab, Nat.max (snd st) (String.length (show_action a)))
  end.

(** lr_table.rs:419-432: the tokens with an action, and [action_print_width]. *)
Definition relevant_vocab (t : lr_table) : outcome E (bitset * nat) :=
  rows <- actions_iter t ;;
  vs <- table_vocab_size t ;;
  foldM (fun st actions => scan_actions 0 actions st) (bs_new vs, 1) rows.

(** lr_table.rs:433-446 *)
Definition goto_print_width (t : lr_table) : outcome E nat :=
  rows <- gotos_iter t ;;
  Ok (max_or 1 (map (fun gotos => max_or 0 (map (fun goto : option nat =>
        match goto with Some goto => String.length (show_goto goto) | None => 0 end) gotos)) rows)).

(** lr_table.rs:475-482 *)
Definition action_cell (width : nat) (a : option action) : string :=
  pad_right width (match a with Some a => show_action a | None => "_" end).

(** lr_table.rs:485-488 *)
Definition goto_cell (width : nat) (g : option nat) : string :=
  pad_right width (match g with Some g => show_goto g | None => "_" end).

(** lr_table.rs:462-497: the rows of the next [n] states, from [state] on; the
    iterators are unwrapped for each. *)
Fixpoint print_rows (n : nat) (t : lr_table) (vocab : list nat) (aw gw sw : nat) (state : nat)
  (actions_iter : list (list (option action))) (gotos_iter : list (list (option nat))) : outcome E string :=
  match n with
  | O => Ok ""
  | S n' =>
      match actions_iter, gotos_iter with
      | action_set :: actions_iter', goto_set :: gotos_iter' =>
          cells <- mapM (fun i => a <- index action_set i ;; Ok (action_cell aw a)) vocab ;;
          let row := pad_left sw (decimal state) ++ ": " ++ join " " cells ++ " : " ++ join " " (map (goto_cell gw) goto_set) in
          rest <- print_rows n' t vocab aw gw sw (S state) actions_iter' gotos_iter' ;;
          Ok (row ++ (if state <? num_states t - 1 then newline_text else "") ++ rest)
      | _, _ => Panic "called `Option::unwrap()` on a `None` value"
      end
  end.

(** lr_table.rs:418-498 *)
Definition table_text (t : lr_table) : outcome E string :=
  '(vocab, action_print_width) <- relevant_vocab t ;;
  goto_print_width <- goto_print_width t ;;
  let state_index_print_width := String.length (decimal (num_states t)) in
  let header := spaces state_index_print_width ++ "  " ++
    join "" (map (fun i => pad_right action_print_width (show_token_id (aug_from_id i)) ++ " ") (bs_for_each vocab)) ++
    newline_text in
  action_chunks <- actions_iter t ;;
  goto_chunks <- gotos_iter t ;;
  body <- print_rows (num_states t) t (bs_for_each vocab) action_print_width goto_print_width state_index_print_width 0
            action_chunks goto_chunks ;;
  Ok (header ++ body).

End Display.
