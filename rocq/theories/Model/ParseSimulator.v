(** Model of lr_table/src/parse_simulator.rs. *)
From Coq Require Import Arith Bool String NArith List.
From Verif Require Import Base.Prelude Spec.Grammar Model.Error.
From Verif Require Import Model.Vocabulary Model.IndexedGrammar Model.LRTable.
Import ListNotations.

(** parse_simulator.rs:13-16 *)
Record parser (T L : Type) := mk_parser {
  pgrammar : indexed_grammar T L;
  plr_table : lr_table;
}.
Arguments mk_parser {T L}.
Arguments pgrammar {T L}.
Arguments plr_table {T L}.

Section Sim.
Context {bm : BuildMode} {T L : Type} `{EqDec T} `{EqDec L}.

(** parse_simulator.rs:19-23 *)
Definition parser_new (fuel : nat) (g : grammar T L) : outcome (lr_error T L) (parser T L) :=
  ig <- indexed_build fuel g ;;
  table <- table_build ig fuel ;;
  Ok (mk_parser ig table).

(** Popping [n] elements off a stack kept top first ([Vec::pop] on an empty
    vector does nothing). *)
Definition pop_n {A} (n : nat) (l : list A) : list A := skipn n l.

(** parse_simulator.rs:64-76: the two debug assertions before popping; the
    stack is kept top first, so the last [n] nodes in order are
    [rev (firstn n nodes)]. *)
Definition nodes_match (expected : list inode) (nodes : list inode) : bool :=
  forallb (fun p => eqb (fst p) (snd p))
    (combine expected (rev (firstn (List.length expected) nodes))).

(** parse_simulator.rs:35-99: one round of the loop.  The state is (states,
    nodes, remaining stream), both stacks top first.  Printing is omitted. *)
Definition parse_step {E} (p : parser T L) (st : list nat * list inode * list T)
  : outcome E ((list nat * list inode * list T) + bool) :=
  let '(states, nodes, stream) := st in
  match states with
  | [] =>
      _ <- debug_assert false "unreachable" ;;
      Ok (inr false)
  | state :: _ =>
      let token := match stream with t :: _ => Token t | [] => EndOfStream end in
      match augmented_token_to_id (ivocab (pgrammar p)) token with
      | None => Ok (inr false)
      | Some token_id =>
          oa <- get_action (plr_table p) state token_id ;;
          match oa with
          | None => Ok (inr false)
          | Some (Shift next_state) =>
              Ok (inl (next_state :: states, Terminal token_id :: nodes, tl stream))
          | Some (Reduce rule) =>
              grammar_rule <- production_rule (pgrammar p) rule ;;
              let body := rules_excluding_epsilon grammar_rule in
              _ <- debug_assert (List.length body <=? List.length nodes) "count <= nodes.len()" ;;
              _ <- debug_assert (nodes_match body nodes) "grammar_node == stack_node" ;;
              let states' := pop_n (List.length body) states in
              let nodes' := pop_n (List.length body) nodes in
              _ <- debug_assert (negb (List.length states' =? 0)) "!states.is_empty()" ;;
              let label := isymbol grammar_rule in
              top <- expect (hd_error states') "called `Option::unwrap()` on a `None` value" ;;
              og <- get_goto (plr_table p) top label ;;
              match og with
              | Some s => Ok (inl (s :: states', Production label :: nodes', stream))
              | None => Ok (inr false)
              end
          | Some Accept => Ok (inr true)
          end
      end
  end.

(** parse_simulator.rs:27-104 *)
Definition parse_stream {E} (fuel : nat) (p : parser T L) (stream : list T) : outcome E bool :=
  while_loop fuel (parse_step p) ([root_state], [], stream).

End Sim.
