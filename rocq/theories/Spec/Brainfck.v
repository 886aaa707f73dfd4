(** What Brainfuck programs mean: commands on an endless row of bytes. *)
From Coq Require Import Arith Bool NArith List.
From Verif Require Import Base.Prelude Spec.TestLanguages Model.Brainfck.
Import ListNotations.

Inductive op := GoRight | GoLeft | Increase | Decrease | Write | Read.
(** A command is an operation, or a loop that repeats its commands while the byte it is
    at is not zero. *)
Inductive command := Do (o : op) | Loop (body : list command).

Definition op_instruction (o : op) : instruction :=
  match o with GoRight => IncTape | GoLeft => DecTape | Increase => IncByte | Decrease => DecByte | Write => Output | Read => Input end.
Fixpoint command_code (c : command) : list instruction :=
  match c with
  | Do o => [op_instruction o]
  | Loop body => OpenBracket :: flat_map command_code body ++ [CloseBracket]
  end.
(** How a program is written. *)
Definition written (p : list command) : list instruction := flat_map command_code p.

(** No loop has a loop in it. *)
Definition is_op (c : command) : Prop := match c with Do _ => True | Loop _ => False end.
Definition unnested (p : list command) : Prop :=
  Forall (fun c => match c with Do _ => True | Loop body => Forall is_op body end) p.

(** The bytes, the place, and the number of times that input was asked for.  The row
    begins at place 0 and has no other end. *)
Record memory := mk_memory { byte_at : nat -> N; place : nat; asked : nat }.
Definition blank : memory := mk_memory (fun _ => 0%N) 0 0.
Definition byte (m : memory) : N := byte_at m (place m).
Definition put (m : memory) (b : N) : memory :=
  mk_memory (fun i => if i =? place m then b else byte_at m i) (place m) (asked m).

(** What can be seen from outside.  After a failure the program goes on with the next
    command. *)
Inductive event := Wrote (b : N) | NoInput | NoPlace.

Section Run.
Variable input : nat -> option N.

Definition perform (o : op) (m : memory) : memory * option event :=
  match o with
  | GoRight => (mk_memory (byte_at m) (S (place m)) (asked m), None)
  | GoLeft => match place m with 0 => (m, Some NoPlace) | S p => (mk_memory (byte_at m) p (asked m), None) end
  | Increase => (put m ((byte m + 1) mod 256)%N, None)
  | Decrease => (put m ((byte m + 255) mod 256)%N, None)
  | Write => (m, Some (Wrote (byte m)))
  | Read =>
    let m' := mk_memory (byte_at m) (place m) (S (asked m)) in
    match input (asked m) with Some b => (put m' b, None) | None => (m', Some NoInput) end
  end.

(** One step of what is still to be done. *)
Inductive run_step : list command * memory -> option event -> list command * memory -> Prop :=
| step_do o p m : run_step (Do o :: p, m) (snd (perform o m)) (p, fst (perform o m))
| step_enter body p m : byte m <> 0%N -> run_step (Loop body :: p, m) None (body ++ Loop body :: p, m)
| step_leave body p m : byte m = 0%N -> run_step (Loop body :: p, m) None (p, m).

(** What is seen next, if anything. *)
Inductive seen_next : list command * memory -> option event -> list command * memory -> Prop :=
| seen_end m : seen_next ([], m) None ([], m)
| seen_event c e c' : run_step c (Some e) c' -> seen_next c (Some e) c'
| seen_later c c' o c'' : run_step c None c' -> seen_next c' o c'' -> seen_next c o c''.

(** The first things seen. *)
Inductive seen : list command * memory -> list (option event) -> Prop :=
| seen_nil c : seen c []
| seen_cons c o c' os : seen_next c o c' -> seen c' os -> seen c (o :: os).
End Run.

(** What a call of the interpreter's [next] should return: what is seen next. *)
Definition told (o : option event) : option (bf_error + N) :=
  match o with
  | Some (Wrote b) => Some (inr b)
  | Some NoInput => Some (inl EndOfInput)
  | Some NoPlace => Some (inl ProgramCounterBelowZero)
  | None => None
  end.
