(** The interpreter in /repo/tests/brainfck.rs.  Its instructions (lines 10-20) are those
    of [Spec.TestLanguages]; [InstructionList] (55-57) is the list of its instructions. *)
From Coq Require Import Arith Bool String NArith List.
From Verif Require Import Base.Prelude Spec.TestLanguages.
Import ListNotations.

(** lines 113-117 *)
Inductive bf_error := EndOfInput | ProgramCounterBelowZero | Halt.

(** lines 140-146 [BrainFckState], without the program.  [input] is any iterator: what
    its calls of [next] return, one after the other; [bf_reads] of them were made. *)
Record bf_state := mk_bf { bf_pc : nat; bf_tape : list N; bf_position : nat; bf_reads : nat }.

(** lines 148-158 [new], 250-255 [execute]; [InstructionPointer::default] (38-39) is 0. *)
Definition execute : bf_state := mk_bf 0 [0%N] 0 0.

Definition unwrap_none : string := "called `Option::unwrap()` on a `None` value"%string.
Definition out_of_bounds : string := "index out of bounds"%string.

Section Interpreter.
Variable instructions : list instruction.
Variable input : nat -> option N.

(** lines 73-79 *)
Definition get (pc : nat) : option instruction :=
  if pc <? List.length instructions then nth_error instructions pc else None.

(** The loop of lines 198-200, where [rest] are the instructions from [pc] on. *)
Fixpoint skip_to_close (rest : list instruction) (pc : nat) : outcome Empty_set nat :=
  match rest with
  | [] => Panic unwrap_none
  | CloseBracket :: _ => Ok pc
  | _ :: rest' => skip_to_close rest' (S pc)
  end.

(** The loop of lines 209-211.  With [pc] = 0, [prev] (50-52) overflows, which is a panic
    in debug mode; in release mode there is no such instruction, and [unwrap] panics.
    Both are the same panic here. *)
Fixpoint back_to_open (pc : nat) : outcome Empty_set nat :=
  match pc with
  | 0 => Panic unwrap_none
  | S prev =>
    match get prev with
    | None => Panic unwrap_none
    | Some OpenBracket => Ok pc
    | Some _ => back_to_open prev
    end
  end.

(** [self.tape[self.position]] *)
Definition cell (s : bf_state) : outcome Empty_set N :=
  match nth_error (bf_tape s) (bf_position s) with Some b => Ok b | None => Panic out_of_bounds end.
(** [self.tape[self.position] = b], after [cell] *)
Fixpoint replace_nth (l : list N) (n : nat) (b : N) : list N :=
  match l, n with
  | [], _ => []
  | _ :: l', 0 => b :: l'
  | x :: l', S n' => x :: replace_nth l' n' b
  end.
Definition set_cell (s : bf_state) (b : N) : bf_state :=
  mk_bf (bf_pc s) (replace_nth (bf_tape s) (bf_position s) b) (bf_position s) (bf_reads s).
Definition set_pc (s : bf_state) (pc : nat) : bf_state := mk_bf pc (bf_tape s) (bf_position s) (bf_reads s).

(** lines 164-217.  The state is kept also when an error is returned. *)
Definition advance (s : bf_state) : outcome Empty_set (bf_state * (bf_error + option N)) :=
  match get (bf_pc s) with
  | None => Ok (s, inl Halt)
  | Some i =>
    let s := set_pc s (S (bf_pc s)) in
    match i with
    | IncTape =>
      let p := S (bf_position s) in
      let tape := if p =? List.length (bf_tape s) then (bf_tape s ++ [0%N])%list else bf_tape s in
      Ok (mk_bf (bf_pc s) tape p (bf_reads s), inr None)
    | DecTape =>
      match bf_position s with
      | 0 => Ok (s, inl ProgramCounterBelowZero)
      | S p => Ok (mk_bf (bf_pc s) (bf_tape s) p (bf_reads s), inr None)
      end
    | IncByte => b <- cell s;; Ok (set_cell s ((b + 1) mod 256)%N, inr None)
    | DecByte => b <- cell s;; Ok (set_cell s ((b + 255) mod 256)%N, inr None)
    | Output => b <- cell s;; Ok (s, inr (Some b))
    | Input =>
      let s' := mk_bf (bf_pc s) (bf_tape s) (bf_position s) (S (bf_reads s)) in
      match input (bf_reads s) with
      | None => Ok (s', inl EndOfInput)
      | Some b => _ <- cell s';; Ok (set_cell s' b, inr None)
      end
    | OpenBracket =>
      b <- cell s;;
      if (b =? 0)%N then
        pc <- skip_to_close (skipn (bf_pc s) instructions) (bf_pc s);;
        Ok (set_pc s (S pc), inr None)
      else Ok (s, inr None)
    | CloseBracket =>
      b <- cell s;;
      if (b =? 0)%N then Ok (s, inr None)
      else
        pc <- back_to_open (pred (bf_pc s));;
        Ok (set_pc s pc, inr None)
    end
  end.

(** lines 226-235; [Diverge] if the loop runs more than [fuel] times. *)
Fixpoint next (fuel : nat) (s : bf_state) : outcome Empty_set (bf_state * option (bf_error + N)) :=
  match fuel with
  | 0 => Diverge
  | S fuel' =>
    r <- advance s;;
    match r with
    | (s', inr (Some b)) => Ok (s', Some (inr b))
    | (s', inr None) => next fuel' s'
    | (s', inl Halt) => Ok (s', None)
    | (s', inl e) => Ok (s', Some (inl e))
    end
  end.

(** What the first [n] calls of [next] return. *)
Fixpoint nexts (n fuel : nat) (s : bf_state) : outcome Empty_set (list (option (bf_error + N))) :=
  match n with
  | 0 => Ok []
  | S n' =>
    r <- next fuel s;;
    rs <- nexts n' fuel (fst r);;
    Ok (snd r :: rs)
  end.
End Interpreter.
