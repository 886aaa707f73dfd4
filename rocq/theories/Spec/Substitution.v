(** What the constructor of a rule should become: references to nodes replaced
    by variables, everything else unchanged. *)
From Coq Require Import Arith Bool String Ascii NArith List.
From Verif Require Import Base.Prelude Model.TokenTree Model.Terminal Model.Constructor Model.CodeGen.
Import ListNotations.

Definition number_sign : ttree := TPunct "#" Alone.

(** [s] is a number that fits into 64 bits, in decimal digits and perhaps with
    a sign [+]. *)
Definition digit_char (d : nat) : ascii := ascii_of_nat (48 + d).
Fixpoint digit_string (ds : list nat) : string :=
  match ds with [] => EmptyString | d :: ds' => String (digit_char d) (digit_string ds') end.
Fixpoint digits_value (acc : N) (ds : list nat) : N :=
  match ds with [] => acc | d :: ds' => digits_value (acc * 10 + N.of_nat d) ds' end.
Definition decimal (s : string) (n : N) : Prop :=
  exists ds, ds <> [] /\ Forall (fun d => d < 10) ds /\ n = digits_value 0 ds /\ (n < 2 ^ 64)%N /\
    (s = digit_string ds \/ s = String "+" (digit_string ds)).

(** [i] is the only node with label [name]. *)
Definition only_node (nodes : list pnode) (name : string) (i : nat) : Prop :=
  nth_error nodes i = Some (PNProduction name) /\ forall j, nth_error nodes j = Some (PNProduction name) -> j = i.

Section Substitution.
Variable nodes : list pnode.

(** [body] is [ts] with the references replaced. *)
Inductive substituted : list ttree -> list cbody -> Prop :=
| sub_nil : substituted [] []
| sub_name name i ts body :
    only_node nodes name i -> substituted ts body ->
    substituted (number_sign :: TIdent name :: ts) (CVar i :: body)
| sub_index text n nd ts body :
    decimal text n -> nth_error nodes (N.to_nat n) = Some nd -> nd <> PNEpsilon -> substituted ts body ->
    substituted (number_sign :: TLiteral text :: ts) (CVar (N.to_nat n) :: body)
| sub_group d ts body ts' body' :
    substituted ts body -> substituted ts' body' ->
    substituted (TGroup d ts :: ts') (CGroup d body :: body')
| sub_token t ts body :
    t <> number_sign -> (forall d ts', t <> TGroup d ts') -> substituted ts body ->
    substituted (t :: ts) (CToken t :: body).

(** [e] is what is wrong with the first bad reference of [ts]. *)
Inductive bad_reference : list ttree -> gen_error -> Prop :=
| bad_unknown name ts :
    (forall i, nth_error nodes i <> Some (PNProduction name)) ->
    bad_reference (number_sign :: TIdent name :: ts) (UnknownReference name)
| bad_ambiguous name ts i j :
    i <> j -> nth_error nodes i = Some (PNProduction name) -> nth_error nodes j = Some (PNProduction name) ->
    bad_reference (number_sign :: TIdent name :: ts) (AmbiguousReference name)
| bad_number text ts :
    (forall n, ~ decimal text n) ->
    bad_reference (number_sign :: TLiteral text :: ts) (NotAnIndex text)
| bad_range text n ts :
    decimal text n -> length nodes <= N.to_nat n ->
    bad_reference (number_sign :: TLiteral text :: ts) (IndexOutOfRange n)
| bad_epsilon text n ts :
    decimal text n -> nth_error nodes (N.to_nat n) = Some PNEpsilon ->
    bad_reference (number_sign :: TLiteral text :: ts) (IndexOfEpsilon (N.to_nat n))
| bad_dangling ts :
    (forall name ts', ts <> TIdent name :: ts') -> (forall text ts', ts <> TLiteral text :: ts') ->
    bad_reference (number_sign :: ts) DanglingNumberSign
| bad_group d ts ts' e :
    bad_reference ts e -> bad_reference (TGroup d ts :: ts') e
| bad_later ts body ts' e :
    substituted ts body -> bad_reference ts' e -> bad_reference (ts ++ ts') e.
End Substitution.

(** The variables a constructor mentions. *)
Fixpoint body_vars (c : cbody) : list nat :=
  match c with
  | CToken _ => []
  | CGroup _ cs => flat_map body_vars cs
  | CVar i => [i]
  end.
Definition ctor_vars (c : ctor_code) : list nat :=
  match c with
  | CUnit => []
  | CDefault i => [i]
  | CUser body => flat_map body_vars body
  end.

(** The program has code that pops the nodes of rule [i] by [bs] and then runs
    the constructor [c]. *)
Definition constructs (p : program) (i : nat) (bs : list bind_code) (c : ctor_code) : Prop :=
  exists sc, In sc (p_states p) /\
  ((exists ms rc, In (ms, rc) (sc_reduce sc) /\ r_rule rc = i /\ r_binds rc = bs /\ r_ctor rc = c) \/
   (exists m ac, sc_accept sc = Some (m, ac) /\ a_rule ac = i /\ a_binds ac = bs /\ a_ctor ac = c)).
