(** The vocabulary of the specification: grammars, the words they derive and
    parse trees.  This is the data type of lr_table/src/grammar.rs:9-65 (and
    vocabulary.rs:26-31), used by both the model and the specification; the
    notions of derivation below are textbook ones and mention nothing of the
    implementation. *)
From Coq Require Import List.
From Verif Require Import Base.Prelude.
Import ListNotations.

(** vocabulary.rs:27-31 [AugmentedVocabToken] *)
Inductive aug (T : Type) :=
| Token (t : T)
| Epsilon
| EndOfStream.
Arguments Token {T} t.
Arguments Epsilon {T}.
Arguments EndOfStream {T}.

(** grammar.rs:9-12 [ProductionNode] *)
Inductive node (T L : Type) :=
| Terminal (a : aug T)
| Production (l : L).
Arguments Terminal {T L} a.
Arguments Production {T L} l.

(** grammar.rs:21-24 [ProductionRule] *)
Record rule (T L : Type) := mk_rule { symbol : L; rhs : list (node T L) }.
Arguments mk_rule {T L}.
Arguments symbol {T L}.
Arguments rhs {T L}.

(** grammar.rs:49-51 [Grammar]: the list of its productions; the first one is
    the root. *)
Definition grammar (T L : Type) := list (rule T L).

#[global] Instance EqDec_aug {T} `{EqDec T} : EqDec (aug T).
Proof. intros x y; decide equality; apply eq_dec. Defined.
#[global] Instance EqDec_node {T L} `{EqDec T} `{EqDec L} : EqDec (node T L).
Proof. intros x y; decide equality; apply eq_dec. Defined.
#[global] Instance EqDec_rule {T L} `{EqDec T} `{EqDec L} : EqDec (rule T L).
Proof. intros [s1 r1] [s2 r2]; decide equality; apply eq_dec. Defined.

(** grammar.rs:15-17 *)
Definition is_epsilon {T L} (n : node T L) : bool :=
  match n with Terminal Epsilon => true | _ => false end.

(** Parse trees: leaves are tokens, inner nodes carry the index (in the
    grammar) of the rule used and the trees of its non-epsilon nodes. *)
Inductive tree (T : Type) :=
| Leaf (t : T)
| Node (i : nat) (children : list (tree T)).
Arguments Leaf {T} t.
Arguments Node {T} i children.

(** [derives g ns w ts]: the sentential form [ns] derives the word [w], with
    parse trees [ts] for its non-epsilon nodes. *)
Inductive derives {T L} (g : grammar T L) : list (node T L) -> list T -> list (tree T) -> Prop :=
| derives_nil : derives g [] [] []
| derives_token t ns w ts :
    derives g ns w ts ->
    derives g (Terminal (Token t) :: ns) (t :: w) (Leaf t :: ts)
| derives_epsilon ns w ts :
    derives g ns w ts ->
    derives g (Terminal Epsilon :: ns) w ts
| derives_production i r ts1 w1 ns w2 ts2 :
    nth_error g i = Some r ->
    derives g (rhs r) w1 ts1 ->
    derives g ns w2 ts2 ->
    derives g (Production (symbol r) :: ns) (w1 ++ w2) (Node i ts1 :: ts2).

(** [parses g w t]: [t] is a parse tree of [w] from the root rule. *)
Definition parses {T L} (g : grammar T L) (w : list T) (t : tree T) : Prop :=
  exists r ts, nth_error g 0 = Some r /\ derives g (rhs r) w ts /\ t = Node 0 ts.

(** The language of a grammar. *)
Definition language {T L} (g : grammar T L) (w : list T) : Prop :=
  exists t, parses g w t.

(** No rule contains an end-of-stream terminal. *)
Definition no_eos {T L} (g : grammar T L) : Prop :=
  forall r, In r g -> ~ In (Terminal EndOfStream) (rhs r).

(** In every rule, an epsilon node is followed only by epsilon nodes. *)
Definition eps_trailing {T L} (g : grammar T L) : Prop :=
  forall r, In r g -> forall ns1 ns2 n,
    rhs r = ns1 ++ Terminal Epsilon :: ns2 -> In n ns2 -> n = Terminal Epsilon.
