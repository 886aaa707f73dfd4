(** The unit tests of the crate lr_table, run in the model.  They show that the model
    does, where the authors have written it down, what the code does. *)
From Coq Require Import Arith Bool String Ascii NArith List.
From Verif Require Import Base.Prelude Spec.Grammar Model.Error Model.BitSet Model.FixedMap Model.Vocabulary Model.GrammarStr Model.IndexedGrammar.
From Verif Require Import Model.FirstMap Model.Position Model.Closure Model.LRTable Model.ParseSimulator Model.StateMap.
Import ListNotations.
Open Scope string_scope.
Open Scope list_scope.

#[local] Instance EqDec_ascii : EqDec ascii := ascii_dec.

Definition txt (s : string) : text := list_ascii_of_string s.
(** The lines of a raw string, indented. *)
Definition raw_string (l : list string) : text := txt (String.concat (String newline "         ") l).
Definition a_ (c : ascii) : aug ascii := Token c.

Definition unwrap {E A} (m : outcome E A) : option A := match m with Ok a => Some a | _ => None end.
Notation "x <~ m ;; k" := (match m with Some x => k | None => None end) (at level 61, m at next level, right associativity).

(** The same elements, in any order. *)
Fixpoint remove_one {A} `{EqDec A} (a : A) (l : list A) : option (list A) :=
  match l with
  | [] => None
  | b :: l' => if eqb a b then Some l' else r <~ remove_one a l' ;; Some (b :: r)
  end.
Fixpoint unordered {A} `{EqDec A} (l m : list A) : bool :=
  match l with
  | [] => match m with [] => true | _ => false end
  | a :: l' => match remove_one a m with Some m' => unordered l' m' | None => false end
  end.
Fixpoint all_some {A} (l : list (option A)) : option (list A) :=
  match l with
  | [] => Some []
  | o :: l' => a <~ o ;; r <~ all_some l' ;; Some (a :: r)
  end.

Section Tests.
Context {bm : BuildMode}.
Definition igrammar := (indexed_grammar ascii text * hash_map text nat)%type.
Definition ig (l : list string) : option igrammar :=
  g <~ unwrap (from_grammar_str (raw_string l)) ;; unwrap (build_from_grammar 100 g).
Definition label_of (g : igrammar) (l : string) : option nat := hm_get (txt l) (snd g).
(** [VocabSet::from_iter] (vocabulary.rs, for tests) *)
Fixpoint set_of (v : vocab ascii) (s : bitset) (l : list (aug ascii)) : option bitset :=
  match l with
  | [] => Some s
  | t :: l' => id <~ augmented_token_to_id v t ;; s' <~ unwrap (vs_set (E := unit) s id) ;; set_of v s' l'
  end.
Definition of_iter (g : igrammar) (l : list (aug ascii)) : option bitset := set_of (ivocab (fst g)) (vs_new (ivocab (fst g))) l.
(** The first rule of a label. *)
Definition rules_of (g : igrammar) (l : string) : option (list nat) :=
  n <~ label_of g l ;; unwrap (production_rule_ids_for_label (E := unit) (fst g) n).
Definition labelled (g : igrammar) (l : list (string * list (aug ascii))) : option (list (nat * bitset)) :=
  all_some (map (fun e => n <~ label_of g (fst e) ;; s <~ of_iter g (snd e) ;; Some (n, s)) l).

(** ** bit_set.rs *)
Fixpoint fill (s : bitset) (l : list nat) : option (bitset * list bool) :=
  match l with
  | [] => Some (s, [])
  | i :: l' => f <~ unwrap (bs_full (E := unit) s) ;; s' <~ unwrap (bs_set (E := unit) s i) ;; r <~ fill s' l' ;; Some (fst r, f :: snd r)
  end.
(** Full only at the end. *)
Definition fills (size : nat) (l : list nat) : option bool :=
  r <~ fill (bs_new size) l ;; f <~ unwrap (bs_full (E := unit) (fst r)) ;; Some (f && forallb negb (snd r)).

(** ** first_map.rs *)
Definition first_is (l : list string) (expected : list (string * list (aug ascii))) : option bool :=
  g <~ ig l ;; f <~ unwrap (first_build (E := unit) 100 (fst g)) ;; e <~ labelled g expected ;;
  r <~ all_some (map (fun p => s <~ unwrap (first_set (E := unit) f (fst p)) ;; Some (fst p, s)) e) ;; Some (eqb r e).

(** ** fixed_map.rs *)
Fixpoint insert_all (m : sparse_map nat nat) (l : list (nat * nat)) : option (sparse_map nat nat * list nat) :=
  match l with
  | [] => Some (m, [])
  | (k, v) :: l' => r <~ unwrap (sm_get_mut_or_insert_with (E := unit) m k v) ;; x <~ unwrap (sm_deref (E := unit) (fst (fst r)) (snd (fst r))) ;;
    q <~ insert_all (fst (fst r)) l' ;; Some (fst q, x :: snd q)
  end.
Definition sparse (l : list (nat * nat)) : option (list nat * list (nat * nat)) := r <~ insert_all (sm_new 10) l ;; Some (snd r, sm_iter (fst r)).

(** ** closure.rs: the test's function of the same name, at a position of the first
    rule of a label with only the end after it *)
Definition follow_is (l : list string) (label : string) (at_ : nat) (expected : list (string * list (aug ascii))) : option bool :=
  g <~ ig l ;; f <~ unwrap (first_build (E := unit) 100 (fst g)) ;; ids <~ rules_of g label ;; id <~ hd_error ids ;; eos <~ of_iter g [EndOfStream] ;;
  m <~ unwrap (closure_follow_sets (E := unit) (fst g) f 100 (kernel_new [mk_position id at_ eos])) ;; e <~ labelled g expected ;;
  Some (unordered (sm_iter m) e).

Inductive category := At_end | Next_label (l : string) | Next_token (c : ascii).
Definition category_id (g : igrammar) (c : category) : option nat :=
  o <~ match c with
       | At_end => Some None
       | Next_label l => n <~ label_of g l ;; Some (Some (Production n))
       | Next_token t => i <~ token_to_id (ivocab (fst g)) t ;; Some (Some (Terminal (Token i)))
       end ;;
  Some (static_id o (vocab_size (ivocab (fst g)))).
Definition partition_is (l : list string) (label : string) (at_ : nat) (expected : list (category * list (string * nat * nat))) : option bool :=
  g <~ ig l ;; f <~ unwrap (first_build (E := unit) 100 (fst g)) ;; ids <~ rules_of g label ;; id <~ hd_error ids ;; eos <~ of_iter g [EndOfStream] ;;
  m <~ unwrap (partition_closure_by_next_node (E := unit) (fst g) f 100 (kernel_new [mk_position id at_ eos])) ;;
  e <~ all_some (map (fun p => c <~ category_id g (fst p) ;;
         ps <~ all_some (map (fun q => rs <~ rules_of g (fst (fst q)) ;; r <~ nth_error rs (snd (fst q)) ;; Some (r, snd q)) (snd p)) ;; Some (c, ps)) expected) ;;
  Some (unordered (map (fun p => (fst p, map (fun q => (production_id q, pos q)) (snd p))) (sm_iter m)) e).

(** ** indexed_grammar.rs *)
Definition build_error (l : list string) : option (build_grammar_error text) :=
  g <~ unwrap (from_grammar_str (raw_string l)) ;;
  match build_from_grammar 100 g with Err (BuildGrammar e) => Some e | _ => None end.
Definition rules_are (l : list string) (labels : nat) (label : string) (expected : list (ascii * nat)) : option bool :=
  g <~ ig l ;; n <~ label_of g label ;; name <~ unwrap (orig_production_label (E := unit) (fst g) n) ;;
  rs <~ unwrap (production_rules_for_label (E := unit) (fst g) n) ;;
  e <~ all_some (map (fun x => i <~ token_to_id (ivocab (fst g)) (fst x) ;; Some (n, [Some i], snd x)) expected) ;;
  Some (Nat.eqb (labels_count (fst g)) labels && eqb name (txt label) &&
    eqb (map (fun r => (isymbol r, map (fun x => match x with Terminal (Token i) => Some i | _ => None end) (irhs r), original_index r)) rs) e).

(** ** lr_state_map.rs *)
Definition states_are (l : list string) : option (list (state_ty ascii)) :=
  g <~ ig l ;; t <~ unwrap (table_build (fst g) 100) ;; sm <~ unwrap (build_from_lr_table (L := text) (fun m => m) (fst g) t) ;;
  all_some (map (fun s => unwrap (state_type (E := unit) sm s)) (firstn 2 (table_states t))).

(** ** parse_simulator.rs *)
Definition parses (l : list string) (words : list string) : option (list bool) :=
  g <~ unwrap (from_grammar_str (raw_string l)) ;; p <~ unwrap (parser_new 200 g) ;;
  all_some (map (fun w => unwrap (parse_stream (E := unit) 200 p (txt w))) words).
Definition accepts_only (l : list string) (good bad : list string) : option bool :=
  a <~ parses l good ;; b <~ parses l bad ;; Some (forallb (fun x => x) a && forallb negb b).
End Tests.
Arguments fills : clear implicits.
Arguments first_is : clear implicits.
Arguments sparse : clear implicits.
Arguments follow_is : clear implicits.
Arguments partition_is : clear implicits.
Arguments build_error : clear implicits.
Arguments rules_are : clear implicits.
Arguments states_are : clear implicits.
Arguments accepts_only : clear implicits.
Ltac run bm := destruct bm; vm_compute; repeat split; reflexivity.

(** bit_set.rs:67-152 *)
Definition orders_of (size : nat) : list (list nat) := [seq 0 size; map (fun i => size - i - 1) (seq 0 size); map (fun i => (i + 17) mod size) (seq 0 size)].
Example test_full bm : map (fills bm 147) (orders_of 147) = [Some true; Some true; Some true] /\ map (fills bm 128) (orders_of 128) = [Some true; Some true; Some true].
Proof. run bm. Qed.

(** first_map.rs:84-238 *)
Example test_one_rule_grammar bm : first_is bm ["A -> a"] [("A", [a_ "a"])] = Some true.
Proof. run bm. Qed.
Example test_sequence_of_rules_grammar bm : first_is bm ["A -> B"; "B -> C"; "C -> a"] [("A", [a_ "a"]); ("B", [a_ "a"]); ("C", [a_ "a"])] = Some true.
Proof. run bm. Qed.
Example test_tree_of_rules_grammar bm : first_is bm ["A -> B"; "B -> C"; "B -> D"; "C -> a"; "D -> b"]
  [("A", [a_ "a"; a_ "b"]); ("B", [a_ "a"; a_ "b"]); ("C", [a_ "a"]); ("D", [a_ "b"])] = Some true.
Proof. run bm. Qed.
Example test_skip_one_epsilon bm : first_is bm ["A -> B a"; "B -> !"; "B -> b"] [("A", [a_ "a"; a_ "b"]); ("B", [a_ "b"; Epsilon])] = Some true.
Proof. run bm. Qed.
Example test_epsilon_propagate bm : first_is bm ["A -> B"; "B -> !"; "B -> a"] [("A", [a_ "a"; Epsilon]); ("B", [a_ "a"; Epsilon])] = Some true.
Proof. run bm. Qed.
Example test_recursive_rules bm : first_is bm ["S -> A"; "A -> a"; "A -> B b"; "B -> c"; "B -> !"; "B -> A"]
  [("A", [a_ "a"; a_ "b"; a_ "c"]); ("B", [a_ "a"; a_ "b"; a_ "c"; Epsilon])] = Some true.
Proof. run bm. Qed.

(** fixed_map.rs:249-317 *)
Example test_sparse bm : sparse bm [] = Some ([], []) /\ sparse bm [(5, 1000)] = Some ([1000], [(5, 1000)]) /\
  let l := map (fun i => (i, 1000 + i)) (seq 0 10) in sparse bm l = Some (map snd l, l).
Proof. run bm. Qed.

(** grammar.rs:111-138 *)
Example test_parse_from_str : from_grammar_str (raw_string ["A -> B"; "B -> c"]) =
  Ok [mk_rule (txt "A") [Production (txt "B")]; mk_rule (txt "B") [Terminal (a_ "c")]].
Proof. vm_compute. reflexivity. Qed.

(** indexed_grammar.rs:448-569 *)
Example test_one_rule bm : rules_are bm ["A -> a"] 1 "A" [("a"%char, 0)] = Some true.
Proof. run bm. Qed.
Example test_root_production_duplicated bm : build_error bm ["A -> a"; "A -> b"] = Some RootProductionRepeated.
Proof. run bm. Qed.
Example test_root_production_referenced bm : build_error bm ["A -> B"; "B -> C"; "C -> A"] = Some RootProductionReferenced.
Proof. run bm. Qed.
Example test_grammar_not_connected bm : build_error bm ["A -> B"; "B -> C"; "C -> c"; "D -> E"; "D -> !"; "E -> c D"] = Some (NotConnected [txt "D"; txt "E"]).
Proof. run bm. Qed.
Example test_two_rules bm : rules_are bm ["S -> A"; "A -> a"; "A -> b"] 2 "A" [("a"%char, 1); ("b"%char, 2)] = Some true.
Proof. run bm. Qed.
Example test_vocab_set_single_token bm : option_map (fun g => vocab_size (ivocab (fst g))) (ig (bm := bm) ["A -> a"]) = Some 3.
Proof. run bm. Qed.

(** lr_state_map.rs:164-219 *)
Example test_state_trivial bm : states_are bm ["A -> a"] = Some [TyRoot; TyTerminal (a_ "a")].
Proof. run bm. Qed.
Example test_single_rule bm : states_are bm ["A -> a b"] = Some [TyRoot; TyTerminal (a_ "a")].
Proof. run bm. Qed.
Example test_state_two_rules bm : states_are bm ["A -> B"; "B -> a"] = Some [TyRoot; TyReduce 1] /\ match ig (bm := bm) ["A -> B"; "B -> a"] with Some g => label_of g "B" | None => None end = Some 1.
Proof. run bm. Qed.

(** parse_simulator.rs:97-257 *)
Example test_trivial bm : accepts_only bm ["S -> a"] ["a"] [""; "aa"; "b"; "ba"] = Some true.
Proof. run bm. Qed.
Example test_nested_trivial bm : accepts_only bm ["S -> A"; "A -> a"] ["a"] [""; "aa"; "b"; "ba"] = Some true.
Proof. run bm. Qed.
Example test_a_or_b bm : accepts_only bm ["S -> A"; "A -> a"; "A -> b"] ["a"; "b"] [""; "aa"; "ba"] = Some true.
Proof. run bm. Qed.
Example test_even bm : accepts_only bm ["S -> A"; "A -> A a a"; "A -> !"] [""; "aa"; "aaaa"] ["a"; "aaa"; "aaaaa"] = Some true.
Proof. run bm. Qed.
Example test_equal_a_and_b bm : accepts_only bm ["S -> A"; "A -> a A b"; "A -> !"] [""; "ab"; "aabb"; "aaabbb"] ["ba"; "a"; "b"; "bab"; "aba"; "abab"; "baba"] = Some true.
Proof. run bm. Qed.
Example test_sum_product bm : accepts_only bm ["T -> S"; "S -> S p P"; "S -> P"; "P -> P x V"; "P -> V"; "V -> a"; "V -> b"; "V -> c"]
  ["a"; "apb"; "cxa"; "apbxc"; "apbpcpapbpc"; "axbxcxaxbxc"; "axbpcxaxbpc"] [""; "ap"; "pb"; "cx"; "xa"; "ab"; "apbx"; "xapb"] = Some true.
Proof. run bm. Qed.
Example test_multiple_ways_to_resolve_same_rule bm : accepts_only bm ["S -> A"; "A -> a C"; "A -> B"; "B -> C"; "B -> x b"; "C -> x c"]
  ["axc"; "xb"; "xc"] [""; "axb"; "a"; "b"; "c"; "ax"; "ab"; "ac"] = Some true.
Proof. run bm. Qed.

(** vocabulary.rs:243-435 *)
Definition insert_tokens (l : list (aug ascii)) : vocab ascii * list (aug nat) :=
  fold_left (fun st t => let r := get_id_or_insert (fst st) t in (fst r, snd st ++ [snd r])) l (vocab_empty, []).
Definition vocab_facts (l : list (aug ascii)) :=
  let v := fst (insert_tokens l) in
  (vocab_size v, map (augmented_token_to_id v) l, map (fun i => unwrap (id_to_token (E := unit) v i)) (snd (insert_tokens l)), for_each_id v, map label_id (for_each_id v)).
Example test_empty_vocab : let v := @vocab_empty ascii in
  vocab_size v = 2 /\ augmented_token_to_id v Epsilon = Some Epsilon /\ augmented_token_to_id v EndOfStream = Some EndOfStream /\
  id_to_token (E := unit) v Epsilon = Ok Epsilon /\ id_to_token (E := unit) v EndOfStream = Ok EndOfStream /\
  for_each_id v = [Epsilon; EndOfStream] /\ map label_id (for_each_id v) = [0; 1].
Proof. vm_compute. repeat split. Qed.
Example test_single_token_vocab : snd (insert_tokens [a_ "a"]) = [Token 0] /\
  vocab_facts [a_ "a"] = (3, [Some (Token 0)], [Some (a_ "a")], [Epsilon; EndOfStream; Token 0], [0; 1; 2]).
Proof. vm_compute. split; reflexivity. Qed.
Example test_three_token_vocab : let l := [a_ "a"; a_ "b"; a_ "c"] in snd (insert_tokens l) = [Token 0; Token 1; Token 2] /\
  vocab_facts l = (5, [Some (Token 0); Some (Token 1); Some (Token 2)], map Some l, [Epsilon; EndOfStream; Token 0; Token 1; Token 2], [0; 1; 2; 3; 4]).
Proof. vm_compute. split; reflexivity. Qed.
Example test_label_id_roundtrip : let v := fst (insert_tokens (map a_ (txt "abcde"))) in
  vocab_size v = 7 /\ map aug_from_id (map label_id (for_each_id v)) = for_each_id v.
Proof. vm_compute. split; reflexivity. Qed.
Example test_insert_id_twice : snd (insert_tokens (map a_ (txt "abba"))) = [Token 0; Token 1; Token 1; Token 0] /\ vocab_size (fst (insert_tokens (map a_ (txt "abba")))) = 4.
Proof. vm_compute. split; reflexivity. Qed.
Example test_insert_epsilon_and_eof : insert_tokens [Epsilon; EndOfStream; a_ "a"] = (fst (insert_tokens [a_ "a"]), [Epsilon; EndOfStream; Token 0]) /\
  vocab_size (fst (insert_tokens [Epsilon; EndOfStream; a_ "a"])) = 3.
Proof. vm_compute. split; reflexivity. Qed.

(** closure.rs:133-702 *)
Example test_no_closure bm : follow_is bm ["S -> A"; "A -> b"] "A" 0 [] = Some true.
Proof. run bm. Qed.
Example test_closure_at_end bm : follow_is bm ["A -> B"; "B -> a"] "A" 1 [] = Some true.
Proof. run bm. Qed.
Example test_closure_at_start bm : follow_is bm ["A -> B"; "B -> a"] "A" 0 [("B", [EndOfStream])] = Some true.
Proof. run bm. Qed.
Example test_nonzero_pos_closure bm : follow_is bm ["A -> a B"; "B -> a"] "A" 1 [("B", [EndOfStream])] = Some true.
Proof. run bm. Qed.
Example test_circular_closure bm : follow_is bm ["S -> A"; "A -> a B"; "B -> A"] "A" 1 [("A", [EndOfStream]); ("B", [EndOfStream])] = Some true.
Proof. run bm. Qed.
Example test_long_closure bm : follow_is bm ["A -> a B"; "B -> C"; "C -> D"; "D -> a"] "A" 1 [("B", [EndOfStream]); ("C", [EndOfStream]); ("D", [EndOfStream])] = Some true.
Proof. run bm. Qed.
Example test_closure_multiple_rules bm : follow_is bm ["A -> B"; "B -> a"; "B -> b"] "A" 0 [("B", [EndOfStream])] = Some true.
Proof. run bm. Qed.
Definition skip_all : list string := ["A -> B C D"; "B -> b"; "B -> !"; "C -> c"; "C -> !"; "D -> d"; "D -> !"].
Example test_closure_skip_all_rules bm : follow_is bm skip_all "A" 0 [("B", [a_ "c"; a_ "d"; EndOfStream])] = Some true.
Proof. run bm. Qed.
Example test_closure_follow_set_before_terminal bm : follow_is bm ["A -> B c"; "B -> a"] "A" 0 [("B", [a_ "c"])] = Some true.
Proof. run bm. Qed.
Example test_closure_follow_set_before_production_label bm : follow_is bm ["A -> B C d"; "B -> b"; "C -> c"] "A" 0 [("B", [a_ "c"])] = Some true.
Proof. run bm. Qed.
Example test_closure_follow_set_before_production_label_with_epsilon bm : follow_is bm ["A -> B C d"; "B -> b"; "C -> c"; "C -> !"] "A" 0 [("B", [a_ "c"; a_ "d"])] = Some true.
Proof. run bm. Qed.
Example test_closure_follow_set_epsilon_until_end bm : follow_is bm ["A -> B C D"; "B -> b"; "C -> c"; "C -> !"; "D -> d"; "D -> !"] "A" 0 [("B", [a_ "c"; a_ "d"; EndOfStream])] = Some true.
Proof. run bm. Qed.
Example test_closure_follow_set_sum_product_grammar bm : follow_is bm ["A -> S"; "S -> S p V"; "S -> P"; "P -> P x V"; "P -> V"; "V -> a"; "V -> b"; "V -> c"] "A" 0
  [("S", [a_ "p"; EndOfStream]); ("P", [a_ "p"; a_ "x"; EndOfStream]); ("V", [a_ "p"; a_ "x"; EndOfStream])] = Some true.
Proof. run bm. Qed.
Example test_closure_partition_simple bm : partition_is bm ["A -> B"; "B -> a C"; "C -> b"; "C -> c"] "B" 1
  [(Next_label "C", [("B", 0, 1)]); (Next_token "b", [("C", 0, 0)]); (Next_token "c", [("C", 1, 0)])] = Some true.
Proof. run bm. Qed.
Example test_closure_partition_end_of_rule bm : partition_is bm ["A -> B"; "B -> a"] "B" 1 [(At_end, [("B", 0, 1)])] = Some true.
Proof. run bm. Qed.
Example test_closure_partition_skip_all_rules bm : partition_is bm skip_all "A" 0
  [(At_end, [("B", 1, 0)]); (Next_label "B", [("A", 0, 0)]); (Next_token "b", [("B", 0, 0)])] = Some true.
Proof. run bm. Qed.
