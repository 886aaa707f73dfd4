(** Concrete grammars on which the code breaks a desirable property. *)
From Coq Require Import Arith Bool String NArith List Lia.
From Verif Require Import Base.Prelude Spec.Grammar Spec.Validity Spec.Nullable Model.Error.
From Verif Require Import Model.Vocabulary Model.IndexedGrammar Model.FirstMap Model.LRTable Model.ParseSimulator.
From Verif Require Import Proofs.Fuel.
Import ListNotations.
Open Scope string_scope.

Notation G := (grammar string string).
Definition tk (s : string) : node string string := Terminal (Token s).
Definition nt (s : string) : node string string := Production s.
Definition eps : node string string := Terminal Epsilon.

(** Deciding the side conditions on concrete grammars. *)
Definition no_eos_b {T L} (g : grammar T L) : bool :=
  forallb (fun r => forallb (fun nd => match nd with Terminal EndOfStream => false | _ => true end) (rhs r)) g.

Lemma no_eos_ok {T L} (g : grammar T L) : no_eos_b g = true -> no_eos g.
Proof.
  unfold no_eos_b. rewrite forallb_forall. intros H r Hr Hin. specialize (H r Hr). rewrite forallb_forall in H.
  specialize (H _ Hin). discriminate.
Qed.

Fixpoint trailing_b {T L} (ns : list (node T L)) : bool :=
  match ns with
  | [] => true
  | nd :: ns' => if is_epsilon nd then forallb is_epsilon ns' else trailing_b ns'
  end.

Lemma is_epsilon_true {T L} (nd : node T L) : is_epsilon nd = true -> nd = Terminal Epsilon.
Proof. destruct nd as [[| |]|]; simpl; congruence. Qed.

Lemma eps_trailing_ok {T L} (g : grammar T L) : forallb (fun r => trailing_b (rhs r)) g = true -> eps_trailing g.
Proof.
  rewrite forallb_forall. intros H r Hr ns1 ns2 nd Hns Hin. specialize (H r Hr). rewrite Hns in H. clear Hns.
  induction ns1 as [|x ns1 IH]; simpl in H.
  - rewrite forallb_forall in H. apply is_epsilon_true. auto.
  - destruct (is_epsilon x); auto. rewrite forallb_forall in H. apply is_epsilon_true. apply H. apply in_or_app. simpl. auto.
Qed.

(** Reading off the word of a tree and checking it against the grammar. *)
Section Check.
Context {T L : Type} `{EqDec T} `{EqDec L}.
Variable g : grammar T L.

Fixpoint check (fuel : nat) (ns : list (node T L)) (ts : list (tree T)) : option (list T) :=
  match fuel with
  | 0 => None
  | S fuel' =>
      match ns, ts with
      | [], [] => Some []
      | Terminal (Token t) :: ns', Leaf t' :: ts' =>
          if eq_dec t t' then match check fuel' ns' ts' with Some w => Some (t :: w) | None => None end else None
      | Terminal Epsilon :: ns', _ => check fuel' ns' ts
      | Production l :: ns', Node i ts1 :: ts' =>
          match nth_error g i with
          | Some r => if eq_dec (symbol r) l then
              match check fuel' (rhs r) ts1, check fuel' ns' ts' with
              | Some w1, Some w2 => Some (w1 ++ w2)%list
              | _, _ => None
              end else None
          | None => None
          end
      | _, _ => None
      end
  end.

Lemma check_ok fuel : forall ns ts w, check fuel ns ts = Some w -> derives g ns w ts.
Proof.
  induction fuel as [|fuel IH]; intros ns ts w Hc; [discriminate|]. simpl in Hc.
  destruct ns as [|[[t| |]|l] ns].
  - destruct ts; [|discriminate]. injection Hc as <-. constructor.
  - destruct ts as [|[t'|] ts]; try discriminate. destruct (eq_dec t t') as [<-|]; [|discriminate].
    destruct (check fuel ns ts) eqn:Hx; [|discriminate]. injection Hc as <-. constructor. auto.
  - constructor. auto.
  - discriminate.
  - destruct ts as [|[|i ts1] ts]; try discriminate. destruct (nth_error g i) as [r|] eqn:Hi; [|discriminate].
    destruct (eq_dec (symbol r) l) as [<-|]; [|discriminate].
    destruct (check fuel (rhs r) ts1) eqn:H1; [|discriminate]. destruct (check fuel ns ts) eqn:H2; [|discriminate].
    injection Hc as <-. econstructor; eauto.
Qed.

Definition check_tree (fuel : nat) (t : tree T) : option (list T) :=
  match t, nth_error g 0 with
  | Node 0 ts, Some r => check fuel (rhs r) ts
  | _, _ => None
  end.

Lemma check_tree_ok fuel t w : check_tree fuel t = Some w -> parses g w t.
Proof.
  unfold check_tree. destruct t as [|[|i] ts]; try discriminate. destruct (nth_error g 0) as [r|] eqn:Hr; [|discriminate].
  intros Hc. exists r, ts. split; auto. split; auto. eapply check_ok; eauto.
Qed.
End Check.

(** [nl] is closed under derivation of the empty word and each of its labels has
    an epsilon rule. *)
Definition direct_b {T L} `{EqDec L} (g : grammar T L) (nl : list L) : bool :=
  forallb (fun r => implb (forallb (fun nd => match nd with
      | Terminal Epsilon => true
      | Production l => if in_dec eq_dec l nl then true else false
      | _ => false end) (rhs r)) (if in_dec eq_dec (symbol r) nl then true else false)) g
  && forallb (fun l => existsb (fun r => (if eq_dec (symbol r) l then true else false) && forallb is_epsilon (rhs r)) g
       || negb (existsb (fun r => existsb (fun nd => match nd with Production l' => if eq_dec l l' then true else false | _ => false end) (rhs r)) g)) nl
  && (match nl with [] => true | _ => false end ||
      existsb (fun r => match rhs r with Terminal (Token _) :: _ => true | _ => false end) g).

Lemma direct_b_ok {T L} `{EqDec L} (g : grammar T L) nl : direct_b g nl = true -> direct_epsilon g.
Proof.
  unfold direct_b. rewrite !andb_true_iff, !forallb_forall. intros ((Hcl & Hdir) & Hfirst).
  assert (Hn : forall ns w ts, derives g ns w ts -> w = [] -> forallb (fun nd => match nd with
      | Terminal Epsilon => true
      | Production l => if in_dec eq_dec l nl then true else false
      | _ => false end) ns = true).
  { induction 1 as [|t ns w ts D IH|ns w ts D IH|i r ts1 w1 ns w2 ts2 Hi D1 IH1 D2 IH2]; intros Hw; auto; try discriminate.
    apply app_eq_nil in Hw as (-> & ->). specialize (IH1 eq_refl). specialize (IH2 eq_refl).
    cbn [forallb]. apply andb_true_iff. split; auto. specialize (Hcl r (nth_error_In _ _ Hi)). rewrite IH1 in Hcl. auto. }
  assert (Hnl : forall l, nullable g l -> In l nl).
  { intros l (ts & D). specialize (Hn _ _ _ D eq_refl). simpl in Hn. destruct (in_dec eq_dec l nl); auto; discriminate. }
  split.
  - intros l Hl (r0 & Hr0 & Hl0). specialize (Hdir l (Hnl l Hl)). apply orb_true_iff in Hdir as [Hdir|Hdir].
    2: { apply negb_true_iff in Hdir. assert (Hx : existsb (fun r => existsb (fun nd => match nd with Production l' => if eq_dec l l' then true else false | _ => false end) (rhs r)) g = true); [|congruence].
         apply existsb_exists. exists r0. split; auto. apply existsb_exists. exists (Production l). split; auto. destruct (eq_dec l l); auto. }
    apply existsb_exists in Hdir as (r & Hr & Hx).
    apply andb_true_iff in Hx as (Hs & He). destruct (eq_dec (symbol r) l) as [Heq|]; [|discriminate].
    exists r. split; auto. split; auto. rewrite forallb_forall in He. apply Forall_forall. intros nd Hnd. apply is_epsilon_true; auto.
  - intros (l & Hl & _). apply Hnl in Hl. destruct nl as [|x nl']; [contradiction|]. simpl orb in Hfirst.
    apply existsb_exists in Hfirst as (r & Hr & Hx). exists r. destruct (rhs r) as [|[[t| |]|] ns]; try discriminate.
    exists (Token t). split; auto. split; auto. discriminate.
Qed.

(** Running the code on an example. *)
Definition builds (bm : BuildMode) (g : G) : bool := match parser_new 50 g with Ok _ => true | _ => false end.
Lemma builds_ok bm g : builds bm g = true -> exists p, parser_new 50 g = Ok p.
Proof. unfold builds. destruct (parser_new 50 g); try discriminate. eauto. Qed.

Definition runs (bm : BuildMode) (g : G) (ws : list (list string)) : list (option bool) :=
  match parser_new 50 g with
  | Ok p => map (fun w => match parse_stream (E := unit) 50 p w with Ok b => Some b | _ => None end) ws
  | _ => []
  end.
Lemma runs_1 bm g w b : runs bm g [w] = [Some b] -> exists p, parser_new 50 g = Ok p /\ parse_stream (E := unit) 50 p w = Ok b.
Proof.
  unfold runs. destruct (parser_new 50 g) as [p| | |]; try discriminate. simpl. intros Hr. exists p. split; auto.
  destruct (parse_stream (E := unit) 50 p w); congruence.
Qed.
Lemma runs_2 bm g w b w' b' : runs bm g [w; w'] = [Some b; Some b'] -> exists p, parser_new 50 g = Ok p /\
  parse_stream (E := unit) 50 p w = Ok b /\ parse_stream (E := unit) 50 p w' = Ok b'.
Proof.
  unfold runs. destruct (parser_new 50 g) as [p| | |]; try discriminate. simpl. intros Hr. exists p. split; auto.
  destruct (parse_stream (E := unit) 50 p w); try congruence. destruct (parse_stream (E := unit) 50 p w'); try congruence. split; congruence.
Qed.

(** [S -> A A; A -> B c; B -> !]: the sentence "cc" is rejected. *)
Definition g_first : G := [mk_rule "S" [nt "A"; nt "A"]; mk_rule "A" [nt "B"; tk "c"]; mk_rule "B" [eps]].
Definition w_first : list string := ["c"; "c"].
Definition t_first : tree string := Node 0 [Node 1 [Node 2 []; Leaf "c"]; Node 1 [Node 2 []; Leaf "c"]].

Lemma complete_false (bm : BuildMode) : exists (g : G) w p, no_eos g /\ eps_trailing g /\
  parser_new 50 g = Ok p /\ language g w /\ forall fuel, 50 <= fuel -> parse_stream (E := unit) fuel p w = Ok false.
Proof.
  exists g_first, w_first.
  assert (Hp : exists p, parser_new 50 g_first = Ok p /\ parse_stream (E := unit) 50 p w_first = Ok false).
  { apply runs_1. destruct bm; vm_compute; reflexivity. }
  destruct Hp as (p & Hp & Hw). exists p. split; [apply no_eos_ok; reflexivity|]. split; [apply eps_trailing_ok; reflexivity|].
  split; auto. split; [exists t_first; apply (check_tree_ok _ 10); reflexivity|].
  intros fuel Hf. exact (le_ok _ _ _ (parse_stream_le _ _ Hf _ _) Hw).
Qed.

(** [S -> T; T -> X A | Y A; X -> !; Y -> !; A -> B c; B -> !]: ambiguous, but
    accepted. *)
Definition g_ambig : G := [mk_rule "S" [nt "T"]; mk_rule "T" [nt "X"; nt "A"]; mk_rule "T" [nt "Y"; nt "A"];
  mk_rule "X" [eps]; mk_rule "Y" [eps]; mk_rule "A" [nt "B"; tk "c"]; mk_rule "B" [eps]].

Lemma unambiguous_false (bm : BuildMode) : exists (g : G) w p t1 t2, no_eos g /\ eps_trailing g /\
  parser_new 50 g = Ok p /\ parses g w t1 /\ parses g w t2 /\ t1 <> t2.
Proof.
  assert (Hp : exists p, parser_new 50 g_ambig = Ok p) by (apply builds_ok; destruct bm; vm_compute; reflexivity).
  destruct Hp as (p & Hp).
  exists g_ambig, ["c"], p, (Node 0 [Node 1 [Node 3 []; Node 5 [Node 6 []; Leaf "c"]]]), (Node 0 [Node 2 [Node 4 []; Node 5 [Node 6 []; Leaf "c"]]]).
  split; [apply no_eos_ok; reflexivity|]. split; [apply eps_trailing_ok; reflexivity|]. split; auto.
  split; [apply (check_tree_ok _ 10); reflexivity|]. split; [apply (check_tree_ok _ 10); reflexivity|]. discriminate.
Qed.

(** [S -> ! a]: the sentence "a" is rejected, the non-sentence "aa" accepted. *)
Definition g_mid : G := [mk_rule "S" [eps; tk "a"]].

Lemma g_mid_language w : language g_mid w <-> w = ["a"].
Proof.
  split.
  - intros (t & r & ts & Hr & D & _). injection Hr as <-. simpl in D. inversion D as [| |ns w' ts' D'|]; subst.
    inversion D' as [|t' ns w' ts' D''| |]; subst. inversion D''; subst. reflexivity.
  - intros ->. exists (Node 0 [Leaf "a"]). apply (check_tree_ok _ 10). reflexivity.
Qed.

Lemma mid_epsilon (bm : BuildMode) : exists p, parser_new 50 g_mid = Ok p /\
  parse_stream (E := unit) 50 p ["a"] = Ok false /\ parse_stream (E := unit) 50 p ["a"; "a"] = Ok true.
Proof. apply runs_2. destruct bm; vm_compute; reflexivity. Qed.

Lemma mid_unsound (bm : BuildMode) : exists (g : G) w p, no_eos g /\
  parser_new 50 g = Ok p /\ parse_stream (E := unit) 50 p w = Ok true /\ ~ language g w.
Proof.
  destruct (mid_epsilon bm) as (p & Hp & _ & Hw). exists g_mid, ["a"; "a"], p. split; [apply no_eos_ok; reflexivity|].
  split; auto. split; auto. rewrite g_mid_language. discriminate.
Qed.

(** The same grammar without its epsilon node. *)
Definition g_mid' : G := [mk_rule "S" [tk "a"]].
Lemma mid_epsilon' (bm : BuildMode) : exists p, parser_new 50 g_mid' = Ok p /\
  parse_stream (E := unit) 50 p ["a"] = Ok true /\ parse_stream (E := unit) 50 p ["a"; "a"] = Ok false.
Proof. apply runs_2. destruct bm; vm_compute; reflexivity. Qed.

Lemma epsilon_not_neutral (bm : BuildMode) : exists (g g' : G) p p' w,
  Forall2 same_but_epsilon g g' /\ parser_new 50 g = Ok p /\ parser_new 50 g' = Ok p' /\
  parse_stream (E := unit) 50 p w = Ok false /\ parse_stream (E := unit) 50 p' w = Ok true.
Proof.
  destruct (mid_epsilon bm) as (p & Hp & Hw & _). destruct (mid_epsilon' bm) as (p' & Hp' & Hw' & _).
  exists g_mid, g_mid', p, p', ["a"]. split; auto. repeat constructor.
Qed.

(** [S -> S a]: building the table panics. *)
Definition g_root : G := [mk_rule "S" [nt "S"; tk "a"]].
Lemma root_panics (bm : BuildMode) : exists why, parser_new 50 g_root = Panic why.
Proof. destruct bm; vm_compute; eexists; reflexivity. Qed.

(** [S -> A; A -> a ! b]: parsing "abb" panics in debug builds. *)
Definition g_pan : G := [mk_rule "S" [nt "A"]; mk_rule "A" [tk "a"; eps; tk "b"]].
Lemma parse_panics : exists p why, parser_new (bm := true) 50 g_pan = Ok p /\
  parse_stream (bm := true) (E := unit) 50 p ["a"; "b"; "b"] = Panic why.
Proof.
  set (r := match parser_new (bm := true) 50 g_pan with
            | Ok p => match parse_stream (bm := true) (E := unit) 50 p ["a"; "b"; "b"] with Panic _ => true | _ => false end
            | _ => false end).
  assert (Hr : r = true) by (vm_compute; reflexivity). revert Hr. unfold r.
  destruct (parser_new (bm := true) 50 g_pan) as [p| | |]; try discriminate.
  destruct (parse_stream (bm := true) (E := unit) 50 p ["a"; "b"; "b"]) as [| |why|] eqn:Hp; try discriminate. eauto.
Qed.

(** [S -> A; A -> $ A]: parsing the empty input never ends. *)
Definition g_loop : G := [mk_rule "S" [nt "A"]; mk_rule "A" [Terminal EndOfStream; nt "A"]].

Definition p_loop : parser string string :=
  match parser_new (bm := true) 50 g_loop with Ok p => p | _ => mk_parser (mk_indexed [] [] vocab_empty) (mk_table [] [] 0) end.

Lemma p_loop_ok (bm : BuildMode) : parser_new 50 g_loop = Ok p_loop.
Proof. destruct bm; vm_compute; reflexivity. Qed.

Lemma p_loop_step (bm : BuildMode) E states nodes : parse_step (E := E) p_loop (2 :: states, nodes, []) =
  Ok (inl (2 :: 2 :: states, Terminal EndOfStream :: nodes, [])).
Proof. destruct bm; vm_compute; reflexivity. Qed.

Lemma p_loop_step0 (bm : BuildMode) E : parse_step (E := E) p_loop ([0], [], []) =
  Ok (inl (2 :: [0], [Terminal EndOfStream], [])).
Proof. destruct bm; vm_compute; reflexivity. Qed.

Lemma while_S {E St R} fuel (b : St -> outcome E (St + R)) s :
  while_loop (S fuel) b s = (r <- b s ;; match r with inl s' => while_loop fuel b s' | inr res => Ok res end).
Proof. reflexivity. Qed.

Lemma parse_diverges (bm : BuildMode) : exists (g : G) p, parser_new 50 g = Ok p /\
  forall fuel, parse_stream (E := unit) fuel p [] = Diverge.
Proof.
  exists g_loop, p_loop. split; [apply p_loop_ok|].
  assert (Hl : forall fuel states nodes, while_loop fuel (parse_step (E := unit) p_loop) (2 :: states, nodes, []) = Diverge).
  { induction fuel as [|fuel IH]; intros states nodes; [reflexivity|]. rewrite while_S, p_loop_step. apply IH. }
  unfold parse_stream, root_state. intros [|fuel]; [reflexivity|]. rewrite while_S, p_loop_step0. apply Hl.
Qed.

(** Grammars meeting the hypotheses of the theorems. *)
Definition arith : G :=
  [mk_rule "E" [nt "X"]; mk_rule "X" [nt "X"; tk "+"; nt "T"]; mk_rule "X" [nt "T"];
   mk_rule "T" [tk "n"]; mk_rule "T" [tk "("; nt "X"; tk ")"]].
Definition arith_eps : G :=
  [mk_rule "E" [nt "X"; eps]; mk_rule "X" [nt "X"; tk "+"; nt "T"]; mk_rule "X" [nt "T"; eps; eps];
   mk_rule "T" [tk "n"]; mk_rule "T" [tk "("; nt "X"; tk ")"; eps]].
Definition opt_list : G :=
  [mk_rule "S" [nt "L"; nt "M"]; mk_rule "L" [eps]; mk_rule "L" [tk "a"; nt "L"; eps]; mk_rule "M" [eps]; mk_rule "M" [tk "("; nt "L"; tk ")"]].

Lemma arith_eps_ok : Forall2 same_but_epsilon arith_eps arith /\ arith_eps <> arith /\
  no_eos arith_eps /\ eps_trailing arith_eps /\ eps_trailing arith /\ direct_epsilon arith_eps /\ direct_epsilon arith /\
  (exists p, parser_new (bm := true) 50 arith_eps = Ok p) /\ (exists p, parser_new (bm := true) 50 arith = Ok p).
Proof.
  split; [repeat constructor|]. split; [discriminate|]. split; [apply no_eos_ok; reflexivity|].
  split; [apply eps_trailing_ok; reflexivity|]. split; [apply eps_trailing_ok; reflexivity|].
  split; [apply (direct_b_ok _ []); reflexivity|]. split; [apply (direct_b_ok _ []); reflexivity|].
  split; apply builds_ok; vm_compute; reflexivity.
Qed.

Lemma opt_list_ok : no_eos opt_list /\ eps_trailing opt_list /\ direct_epsilon opt_list /\
  (exists p, parser_new (bm := true) 50 opt_list = Ok p) /\
  parses opt_list ["a"; "("; ")"] (Node 0 [Node 2 [Leaf "a"; Node 1 []]; Node 4 [Leaf "("; Node 1 []; Leaf ")"]]).
Proof.
  split; [apply no_eos_ok; reflexivity|]. split; [apply eps_trailing_ok; reflexivity|].
  split; [apply (direct_b_ok _ ["L"; "M"; "S"]); reflexivity|]. split; [apply builds_ok; vm_compute; reflexivity|].
  apply (check_tree_ok _ 10). reflexivity.
Qed.
