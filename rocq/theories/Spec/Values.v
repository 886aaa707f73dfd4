(** What a generated parser should compute: which tokens a terminal stands
    for, parse trees over tokens, and their values. *)
From Coq Require Import Arith Bool String List Permutation.
From Verif Require Import Base.Prelude Spec.Grammar Model.Error.
From Verif Require Import Model.Vocabulary Model.IndexedGrammar Model.LRTable Model.StateMap.
From Verif Require Import Model.TokenTree Model.Terminal Model.Constructor Model.CodeGen Model.Runtime.
Import ListNotations.

(** The grammar a list of annotated rules stands for. *)
Definition source (rules : list prule) : grammar user_symbol string := map to_lr_production_rule rules.

(** What is known about a grammar the macro has accepted: index and table were
    built from its rules, epsilon occurs in a rule only by itself, and each label
    was given a type. *)
Record accepted {bm : BuildMode} (gi : grammar_info) : Prop := mk_accepted {
  acc_grammar : exists fuel, indexed_build fuel (source (gi_rules gi)) = Ok (gi_grammar gi);
  acc_table : exists fuel, table_build (gi_grammar gi) fuel = Ok (gi_table gi);
  acc_epsilon : forall r, In r (gi_rules gi) -> In PNEpsilon (pr_nodes r) -> pr_nodes r = [PNEpsilon];
  acc_types : forall r, In r (gi_rules gi) -> exists ty, hm_get (pr_name r) (gi_label_types gi) = Some ty;
}.

(** Hash maps and sets enumerate exactly their elements. *)
Record orders_ok (ho : hash_orders) : Prop := mk_orders_ok {
  oo_states : forall m, Permutation (ho_states ho m) m;
  oo_set : forall k s, Permutation (ho_set ho k s) s;
  oo_reduce : forall k m, Permutation (ho_reduce ho k m) m;
  oo_goto : forall k m, Permutation (ho_goto ho k m) m;
}.

(** The terminals written in the rules. *)
Definition terminal_in (rules : list prule) (s : user_symbol) : Prop :=
  exists r, In r rules /\ In (PNSymbol s) (pr_nodes r).

(** No rule relies on the default constructor to convert an epsilon node (such a
    parser is generated, but does not compile). *)
Definition defaults_bound (rules : list prule) : Prop :=
  forall r ty, In r rules -> pr_block r = None -> pr_type r = Some ty -> pr_nodes r <> [PNEpsilon].

(** A parser generated for an accepted grammar, by a generator built in mode
    [bm] and with any order of hash maps, that compiles. *)
Definition generated {bm : BuildMode} (literal_ok : string -> bool) (gi : grammar_info) (p : program) : Prop :=
  defaults_bound (gi_rules gi) /\
  exists ho : hash_orders, accepted gi /\ orders_ok ho /\ generate_parser literal_ok ho gi = Ok p.

(** The first rule does not mention its own label. *)
Definition root_unused (rules : list prule) : Prop :=
  forall r, nth_error rules 0 = Some r -> ~ In (PNProduction (pr_name r)) (pr_nodes r).

(** Terminals whose name becomes that of an enum variant have names that are
    identifiers. *)
Definition names_usable (gi : grammar_info) : Prop :=
  forall s, terminal_in (gi_rules gi) s ->
  match gi_terminal_type gi with TTEnum _ => True | TTRaw _ => sparen s <> PGNone end ->
  string_is_identifier (sname s) = true.

(** The type of the value of a node. *)
Definition node_type (gi : grammar_info) (n : pnode) : option (option (list ttree)) :=
  match n with
  | PNProduction name => hm_get name (gi_label_types gi)
  | PNSymbol _ => Some (Some (inner_type (gi_terminal_type gi)))
  | PNEpsilon => None
  end.

(** The variant whose field is the value of a node, if it is not the node's
    whole value. *)
Definition node_field (n : pnode) : option string :=
  match n with
  | PNSymbol s => match sparen s with PGNone => None | _ => Some (sname s) end
  | _ => None
  end.

(** The program has code that pops the nodes of rule [i] by [bs], code that
    pushes state [s] with a token, and code that pushes state [s] with the value
    of rule [i], after looking for one of [from] if more than one state is pushed. *)
Definition pops (p : program) (i : nat) (bs : list bind_code) : Prop :=
  exists c, In c (p_states p) /\
  ((exists ms rc, In (ms, rc) (sc_reduce c) /\ r_rule rc = i /\ r_binds rc = bs) \/
   (exists m ac, sc_accept c = Some (m, ac) /\ a_rule ac = i /\ a_binds ac = bs)).

Definition pushes_token (p : program) (s : nat) : Prop :=
  exists c m rhs, In c (p_states p) /\ In (m, s, rhs) (sc_shift c).

Definition pushes_value (p : program) (i : nat) (from : list nat) (s : nat) : Prop :=
  exists c ms rc, In c (p_states p) /\ In (ms, rc) (sc_reduce c) /\ r_rule rc = i /\
    match r_goto rc with
    | GotoOne s' => from = [] /\ s = s'
    | GotoMatch arms => In (from, s) arms
    end.

(** The indices of the non-epsilon nodes of a rule, ascending. *)
Fixpoint node_indices_from (i : nat) (ns : list pnode) : list nat :=
  match ns with
  | [] => []
  | PNEpsilon :: ns' => node_indices_from (S i) ns'
  | _ :: ns' => i :: node_indices_from (S i) ns'
  end.
Definition node_indices : list pnode -> list nat := node_indices_from 0.

(** Trees: leaves from left to right, and the rules in post-order. *)
Fixpoint leaves {A} (t : tree A) : list A :=
  match t with
  | Leaf a => [a]
  | Node _ ts => flat_map leaves ts
  end.

Fixpoint tmap {A B} (f : A -> B) (t : tree A) : tree B :=
  match t with
  | Leaf a => Leaf (f a)
  | Node i ts => Node i (map (tmap f) ts)
  end.

Fixpoint postorder {A} (t : tree A) : list nat :=
  match t with
  | Leaf _ => []
  | Node i ts => flat_map postorder ts ++ [i]
  end.

Section Values.
Variable R : rust.
Variable gi : grammar_info.

(** Which tokens a terminal stands for. *)
Definition sym_matches (s : user_symbol) (t : tok R) : bool :=
  match gi_terminal_type gi, t with
  | TTRaw _, TRaw r => if Raw_dec R r (literal_value R (sname s)) then true else false
  | TTEnum _, TVariant n field =>
      eqb n (sname s) &&
      match sparen s, field with
      | PGNone, None => true
      | PGWildcard, Some _ => true
      | PGPattern pat, Some f => pat_matches R pat f
      | _, _ => false
      end
  | _, _ => false
  end.

(** Parse trees over tokens: a leaf is a token with the terminal it is read as. *)
Definition dtree := tree (user_symbol * tok R).

(** [t] is a parse tree of the tokens [toks]. *)
Definition parses_tokens (toks : list (tok R)) (t : dtree) : Prop :=
  map snd (leaves t) = toks /\
  (forall s k, In (s, k) (leaves t) -> sym_matches s k = true) /\
  parses (source (gi_rules gi)) (map fst (leaves t)) (tmap fst t).

(** The value of a leaf as an argument of a constructor: the field of the token
    if its terminal has a pattern or wildcard, else the token. *)
Definition leaf_value (s : user_symbol) (k : tok R) : val R :=
  match sparen s, k with
  | PGNone, _ => RTok k
  | _, TVariant _ (Some f) => RPay f
  | _, _ => RTok k
  end.

(** What the constructor of a rule makes of the values of its nodes. *)
Definition rule_value (i : nat) (vars : env R) : val R + UErr R :=
  match nth_error (gi_rules gi) i with
  | None => inl RUnit
  | Some r =>
      match pr_block r, pr_type r with
      | Some block, _ =>
          match rewrite_provided_constructor (pr_nodes r) block with
          | Ok (CUser body) => user_ctor R i body vars
          | _ => inl RUnit
          end
      | None, Some _ => match vars with (_, v) :: _ => default_ctor R i v | [] => inl RUnit end
      | None, None => inl RUnit
      end
  end.

Definition indices_of (i : nat) : list nat :=
  match nth_error (gi_rules gi) i with Some r => node_indices (pr_nodes r) | None => [] end.

(** Results in order, up to the first error. *)
Fixpoint in_order {C A : Type} (rs : list (list C * (A + UErr R))) : list C * (list A + UErr R) :=
  match rs with
  | [] => ([], inl [])
  | (log, inr e) :: _ => (log, inr e)
  | (log, inl v) :: rs' =>
      match in_order rs' with
      | (log', inr e) => (log ++ log', inr e)
      | (log', inl vs) => (log ++ log', inl (v :: vs))
      end
  end.

(** Bottom-up evaluation, children from left to right; stops at the first
    error.  Also gives the constructors run, in order, with their variables. *)
Fixpoint eval (t : dtree) : list (nat * env R) * (val R + UErr R) :=
  match t with
  | Leaf (s, k) => ([], inl (leaf_value s k))
  | Node i ts =>
      match in_order (map eval ts) with
      | (log, inr e) => (log, inr e)
      | (log, inl vs) =>
          let vars := combine (indices_of i) vs in
          (log ++ [(i, vars)], rule_value i vars)
      end
  end.

(** The constructors a successful evaluation runs, in post-order, each with the
    values of the nodes of its rule. *)
Definition value_of (t : dtree) : val R := match snd (eval t) with inl v => v | inr _ => RUnit end.

Fixpoint calls (t : dtree) : list (nat * env R) :=
  match t with
  | Leaf _ => []
  | Node i ts => flat_map calls ts ++ [(i, combine (indices_of i) (map value_of ts))]
  end.

(** Every token of the list is matched by at most one terminal of the grammar. *)
Definition unambiguous_tokens (toks : list (tok R)) : Prop :=
  forall k s s', In k toks -> terminal_in (gi_rules gi) s -> terminal_in (gi_rules gi) s' ->
    sym_matches s k = true -> sym_matches s' k = true -> s = s'.

(** Constructors that never fail. *)
Definition constructors_succeed : Prop := forall i vars, exists v, rule_value i vars = inl v.

(** The tree [d] is over tokens that match their terminals, and derives them. *)
Definition well_formed (d : dtree) : Prop :=
  (forall s k, In (s, k) (leaves d) -> sym_matches s k = true) /\
  exists nd, derives (source (gi_rules gi)) [nd] (map fst (leaves d)) [tmap fst d].

(** The value [v] on the stack of the parser is that of the tree [d]; a token is
    kept whole. *)
Definition shows (d : dtree) (v : val R) : Prop :=
  match d with
  | Leaf (_, k) => v = RTok k
  | Node _ _ => snd (eval d) = inl v
  end.

(** The tokens at the leaves of a list of trees. *)
Definition tokens_of (ds : list dtree) : list (tok R) := map snd (flat_map leaves ds).

End Values.

(** The stream of a list of tokens, and a stream that fails after it. *)
Definition of_list {A S : Type} (l : list A) (n : nat) : option (A + S) := option_map inl (nth_error l n).
Definition of_list_then {A S : Type} (l : list A) (e : S) (rest : nat -> option (A + S)) (n : nat) : option (A + S) :=
  if n <? List.length l then option_map inl (nth_error l n)
  else if n =? List.length l then Some (inr e) else rest n.

(** The stream first gives the tokens of the list. *)
Definition starts {A S : Type} (input : nat -> option (A + S)) (l : list A) : Prop :=
  forall i a, nth_error l i = Some a -> input i = Some (inl a).

(** The states a running parser passes through. *)
Inductive visits {bm : BuildMode} (R : rust) {SErr : Type} (into : SErr -> UErr R) (input : nat -> option (tok R + SErr)) (p : program)
  : pstate (SErr := SErr) R -> Prop :=
| visits_start : visits R into input p (state_new R input (p_root p, RUnit))
| visits_next st st' : visits R into input p st -> loop_step (E := unit) R into input p st = Ok (inl st') -> visits R into input p st'.

(** What can be seen of a run from outside: the result, the constructors run,
    and the calls of [next]. *)
Definition observed {E : Type} {R : rust} {SErr : Type} (m : outcome E (pstate (SErr := SErr) R * (val R + parser_error R)))
  : outcome E ((val R + parser_error R) * list (nat * env R) * nat) :=
  '(st, r) <- m ;; Ok (r, st_log R st, s_calls R (st_stream R st)).

(** The table has an action for terminal [s] in state [q]. *)
Definition expects {bm : BuildMode} (gi : grammar_info) (q : nat) (s : user_symbol) : Prop :=
  exists a x, augmented_token_to_id (ivocab (gi_grammar gi)) (Token s) = Some a /\
    get_action (E := unit) (gi_table gi) q a = Ok (Some x).
