(** The texts of operators, symbols and conflicts (C84). *)
From Coq Require Import Arith Bool String Ascii List Lia.
From Verif Require Import Base.Prelude Spec.Grammar Spec.Macro Spec.SymbolText Model.Error Model.TokenTree Model.Symbol.
From Verif Require Import Model.LRTable Model.ParseSimulator Model.TableText Model.ErrorText Model.SymbolText Proofs.DebugText.
Import ListNotations.
Open Scope string_scope.

Lemma operator_spelled op ts : symbol_tokens (SOp op) ts -> show_operator op = spelled ts.
Proof.
  intros H. inversion H; subst; auto.
  match goal with Hin : In _ punctuation |- _ => unfold punctuation in Hin; simpl in Hin; repeat destruct Hin as [Hin|Hin]; try contradiction; injection Hin as <- <-; reflexivity end.
Qed.

Lemma operator_told op op' : show_operator op = show_operator op' -> op = op'.
Proof. destruct op, op'; simpl; intros H; try discriminate; reflexivity. Qed.
Lemma debug_operator_told op op' : debug_operator op = debug_operator op' -> op = op'.
Proof. destruct op, op'; simpl; intros H; try discriminate; reflexivity. Qed.

Lemma append_length a b : String.length (a ++ b) = String.length a + String.length b.
Proof. induction a; simpl; auto. Qed.
Lemma append_cancel a b x : a ++ x = b ++ x -> a = b.
Proof.
  revert b. induction a as [|c a IH]; intros [|d b] H; auto.
  - apply (f_equal String.length) in H. cbn in H. rewrite append_length in H. lia.
  - apply (f_equal String.length) in H. cbn in H. rewrite append_length in H. lia.
  - injection H as -> H. f_equal. auto.
Qed.

Lemma append_prefix a b x y : a ++ x = b ++ y -> prefix a b = true \/ prefix b a = true.
Proof.
  revert b. induction a as [|c a IH]; intros [|d b] H; auto.
  injection H as -> H. simpl. destruct (ascii_dec d d) as [_|N]; [|congruence]. apply (IH b H).
Qed.

Lemma every_char (P : ascii -> bool) : forallb P (map ascii_of_nat (seq 0 256)) = true -> forall c, P c = true.
Proof.
  intros H c. rewrite forallb_forall in H. apply H. rewrite <- (ascii_nat_embedding c). apply in_map, in_seq.
  split; [lia|]. apply nat_ascii_bounded.
Qed.

Lemma codes_apart c c' : prefix (debug_char c) (debug_char c') = true -> c = c'.
Proof.
  intros H.
  assert (A : forall c, forallb (fun c' => implb (prefix (debug_char c) (debug_char c')) (Ascii.eqb c c')) (map ascii_of_nat (seq 0 256)) = true).
  { apply every_char. vm_compute. reflexivity. }
  pose proof (every_char _ (A c) c') as B. cbv beta in B. rewrite H in B. simpl in B. apply Ascii.eqb_eq; auto.
Qed.
Lemma code_nonempty c : exists d s, debug_char c = String d s /\ d <> """"%char.
Proof.
  assert (A : forall c, match debug_char c with String d _ => negb (Ascii.eqb d """") | _ => false end = true).
  { apply every_char. vm_compute. reflexivity. }
  specialize (A c). destruct (debug_char c) as [|d s]; [discriminate|]. exists d, s. split; auto. intros ->. discriminate.
Qed.

Lemma debug_chars_told s s' x x' : debug_chars s ++ String """" x = debug_chars s' ++ String """" x' -> s = s' /\ x = x'.
Proof.
  assert (Q : forall c y z w, String """" z = (debug_char c ++ y) ++ w -> False).
  { intros c y z w H. destruct (code_nonempty c) as (d & u & E & N). rewrite E in H. simpl in H. injection H as H _. congruence. }
  revert s'. induction s as [|c s IH]; intros [|c' s'] H; simpl in H.
  - injection H as H. auto.
  - exfalso. eapply Q; eauto.
  - exfalso. eapply Q; eauto.
  - assert (AA : forall a b d : string, (a ++ b) ++ d = a ++ b ++ d) by (induction a; intros; simpl; auto; f_equal; auto).
    rewrite !AA in H. assert (c = c') as <-.
    { destruct (append_prefix _ _ _ _ H) as [P|P]; apply codes_apart in P; auto. }
    assert (C : forall a b d : string, a ++ b = a ++ d -> b = d) by (induction a; simpl; intros b d Hb; auto; injection Hb; auto).
    apply C, IH in H as (-> & ->). auto.
Qed.

Lemma debug_string_told s s' : debug_string s = debug_string s' -> s = s'.
Proof. unfold debug_string. intros H. injection H as H. apply (debug_chars_told s s' "" "") in H. apply H. Qed.

Lemma symbol_told print x y : show_symbol print x = show_symbol print y <-> same_symbol print x y.
Proof.
  split.
  - destruct x, y; cbn [show_symbol]; intros H;
      try (exfalso; revert H; unfold debug_string; try (destruct op; simpl; discriminate); simpl; discriminate).
    + apply debug_operator_told in H as ->. constructor.
    + injection H as H. apply append_cancel in H as ->. constructor.
    + apply debug_string_told in H as ->. constructor.
    + injection H as H. apply append_cancel in H. constructor; auto.
    + injection H as H. apply append_cancel in H. constructor; auto.
    + injection H as H. apply append_cancel in H. constructor; auto.
  - intros H. destruct H; cbn [show_symbol]; congruence.
Qed.

Lemma braces_doubled print ts : prints_braces print ->
  between (SGroup Brace ts) = Some ("{"%char, ts, "}"%char) /\
  show_symbol print (SGroup Brace ts) <> String "{" (print ts ++ String "}" "").
Proof.
  intros H. split; auto. cbn [show_symbol]. destruct (H ts) as (l & r & ->). intros E. apply (f_equal String.length) in E.
  cbn [String.length String.append] in E. repeat (rewrite append_length in E; cbn [String.length String.append] in E). lia.
Qed.

Lemma others_between print x o ts c : (forall d ts', x <> SGroup d ts') -> between x = Some (o, ts, c) ->
  show_symbol print x = String o (print ts ++ String c "").
Proof. destruct x; cbn [between show_symbol]; intros N H; try discriminate; [exfalso; eapply N; eauto| |]; injection H as <- <- <-; reflexivity. Qed.

Section Conflicts.
Context {T L : Type} (show_token : T -> string) (show_label : L -> string).

Variable P : T -> Prop.
Hypothesis Hinj : forall t t', P t -> P t' -> show_token t = show_token t' -> t = t'.
Hypothesis Hend : forall t, P t -> show_token t <> "$" /\ show_token t <> String (ascii_of_nat 206) (String (ascii_of_nat 181) "").

Lemma aug_told_on a b : (forall t, a = Token t -> P t) -> (forall t, b = Token t -> P t) -> show_aug show_token a = show_aug show_token b -> a = b.
Proof.
  intros Ha Hb H. destruct a as [t| |], b as [t'| |]; cbn [show_aug] in H; auto; try discriminate.
  - f_equal. auto.
  - destruct (Hend t (Ha t eq_refl)) as (_ & N). contradiction.
  - destruct (Hend t (Ha t eq_refl)) as (N & _). contradiction.
  - destruct (Hend t' (Hb t' eq_refl)) as (_ & N). symmetry in H. contradiction.
  - destruct (Hend t' (Hb t' eq_refl)) as (N & _). symmetry in H. contradiction.
Qed.

Lemma conflict_told_on (e e' : lr_error T L) : (forall t, conflict_at e = Some (Token t) -> P t) -> (forall t, conflict_at e' = Some (Token t) -> P t) ->
  conflict_at e <> None -> show_lr_error show_token show_label e = show_lr_error show_token show_label e' -> e = e'.
Proof.
  intros Hp Hp' Hc H.
  assert (AA : forall a b d : string, (a ++ b) ++ d = a ++ b ++ d) by (induction a; intros; simpl; auto; f_equal; auto).
  destruct e; try (exfalso; apply Hc; reflexivity); destruct e'; cbn [show_lr_error] in H; try discriminate H; cbn [conflict_at] in Hp, Hp'.
  - repeat (injection H as H). f_equal. apply aug_told_on; auto; intros t ->; auto.
  - unfold show_rule_id in H. rewrite !AA in H. repeat (injection H as H).
    apply decimal_same in H; try not_digit. destruct H as (-> & H). repeat (injection H as H). f_equal. apply aug_told_on; auto; intros t ->; auto.
  - unfold show_rule_id in H. rewrite !AA in H. repeat (injection H as H).
    apply decimal_same in H; try not_digit. destruct H as (-> & H). repeat (injection H as H).
    apply decimal_same in H; try not_digit. destruct H as (-> & H). repeat (injection H as H). f_equal. apply aug_told_on; auto; intros t ->; auto.
Qed.
End Conflicts.

Lemma conflict_told {T L : Type} (show_token : T -> string) (show_label : L -> string) (e e' : lr_error T L) :
  told_apart show_token -> conflict_at e <> None ->
  show_lr_error show_token show_label e = show_lr_error show_token show_label e' -> e = e'.
Proof. intros (Hi & Hn). apply (conflict_told_on show_token show_label (fun _ => True)); auto. Qed.

(** Two letters that may be either of two things, before a dollar sign and at the end. *)
Definition g_dollar : Spec.Grammar.grammar string string :=
  [mk_rule "S" [Production "A"; Terminal (Token "$")]; mk_rule "A" [Production "B"]; mk_rule "A" [Production "C"];
   mk_rule "B" [Terminal (Token "x")]; mk_rule "C" [Terminal (Token "x")]].
Definition g_end : Spec.Grammar.grammar string string :=
  [mk_rule "S" [Production "A"]; mk_rule "A" [Production "B"]; mk_rule "A" [Production "C"];
   mk_rule "B" [Terminal (Token "x")]; mk_rule "C" [Terminal (Token "x")]].

Lemma dollar_or_end : forall bm : BuildMode, exists (g g' : Spec.Grammar.grammar string string) e e',
  parser_new 50 g = Err e /\ parser_new 50 g' = Err e' /\
  conflict_at e = Some (Token "$") /\ conflict_at e' = Some EndOfStream /\
  forall show_label, show_lr_error (fun t => t) show_label e = show_lr_error (fun t => t) show_label e'.
Proof.
  intros bm. exists g_dollar, g_end.
  destruct (@parser_new bm string string _ _ 50 g_dollar) as [p|e|w|] eqn:E1; try (exfalso; destruct bm; vm_compute in E1; discriminate E1).
  destruct (@parser_new bm string string _ _ 50 g_end) as [p|e'|w|] eqn:E2; try (exfalso; destruct bm; vm_compute in E2; discriminate E2).
  exists e, e'. destruct bm; vm_compute in E1; vm_compute in E2; injection E1 as <-; injection E2 as <-; repeat split.
Qed.

(** A way of printing tokens: one after the other. *)
Fixpoint tree_text (t : ttree) : string :=
  match t with
  | TGroup d ts =>
      let inner := (fix go (l : list ttree) : string := match l with [] => "" | t' :: l' => tree_text t' ++ go l' end) ts in
      match d with
      | Brace => "{" ++ inner ++ "}"
      | Parenthesis => "(" ++ inner ++ ")"
      | Bracket => "[" ++ inner ++ "]"
      | NoDelimiter => inner
      end
  | TPunct c _ => String c ""
  | TIdent name => name
  | TLiteral text => text
  end.
Fixpoint plain_text (ts : list ttree) : string := match ts with [] => "" | t :: ts' => tree_text t ++ plain_text ts' end.

Lemma inner_text ts : (fix go (l : list ttree) : string := match l with [] => "" | t' :: l' => tree_text t' ++ go l' end) ts = plain_text ts.
Proof. induction ts as [|t ts IH]; cbn; [|rewrite IH]; reflexivity. Qed.

Lemma plain_braces : prints_braces plain_text.
Proof.
  intros ts. exists "", "". cbn [plain_text tree_text]. rewrite inner_text. cbn [String.append]. f_equal.
  generalize (plain_text ts). induction s as [|c s IH]; simpl; [reflexivity|]. f_equal. exact IH.
Qed.

Lemma braces_refuted print : prints_braces print -> exists x o ts c, between x = Some (o, ts, c) /\ (exists tokens, symbol_tokens x tokens) /\
  show_symbol print x <> String o (print ts ++ String c "").
Proof.
  intros H. exists (SGroup Brace [TIdent "x"]), "{"%char, [TIdent "x"], "}"%char.
  destruct (braces_doubled print [TIdent "x"] H) as (B & N). repeat split; auto. eexists. constructor.
Qed.

Definition bit_text (b : bool) : string := if b then "one" else "nil".
Lemma text_examples :
  map (show_symbol plain_text) [SOp Arrow; SIdent "A"; SLiteral "'\n'"; SLiteral "'""'"; SParen [TIdent "x"; TPunct "," Alone]; SGroup Brace [TIdent "x"]] =
    ["Arrow"; "<A>"; """'\\n'"""; """'\""'"""; "(x,)"; "{{x}}"] /\
  prints_braces plain_text /\ symbol_tokens (SOp Arrow) [TPunct "=" Joint; TPunct ">" Alone] /\ show_operator Arrow = "=>" /\
  told_apart bit_text /\ conflict_at (T := bool) (L := string) (ReduceConflict 3 12 (Token true)) <> None /\
  show_lr_error bit_text (fun l : string => l) (ReduceConflict 3 12 (Token true)) =
    "Reduce conflict between rule RuleId(3) and rule RuleId(12) with lookahead one".
Proof.
  split; [vm_compute; reflexivity|]. split; [exact plain_braces|]. split; [constructor|]. split; [reflexivity|].
  split; [|split; [discriminate|vm_compute; reflexivity]].
  split; [intros [] []; simpl; intros H; congruence|]. intros []; split; simpl; discriminate.
Qed.

(** *** Terminals of [grammar!] *)
From Verif Require Import Model.IndexedGrammar Model.Terminal Model.Constructor Model.CodeGen Model.FrontEnd Spec.Values Spec.LR1 Spec.Nullable Spec.Validity Spec.Observers Proofs.WP Proofs.VocabProofs Proofs.IndexedBuild Proofs.IndexedMain Proofs.IndexedFinal Proofs.TableBuild Proofs.LR1Final Proofs.MacroMain.
From Verif Require Import Proofs.GenExamples Proofs.MacroExamples Proofs.MacroRefute.
Open Scope string_scope.

Lemma ident_all n : string_is_identifier n = true -> all (fun c => is_ident_char c = true) n.
Proof.
  destruct n as [|c n]; [discriminate|]. cbn [string_is_identifier]. rewrite andb_true_iff. intros (_ & H). revert H.
  generalize (String c n). clear. unfold all. induction s as [|d s IH]; cbn [all_chars list_ascii_of_string]; [constructor|].
  rewrite andb_true_iff. intros (A & B). constructor; auto.
Qed.

Lemma argument_stops p : stops_at (fun c => is_ident_char c = true) (match p with PGPattern pat => "(" ++ pat ++ ")" | PGWildcard => "(..)" | PGNone => "" end).
Proof. destruct p; cbn; auto; discriminate. Qed.

Definition spelled_out (s : user_symbol) : Prop :=
  (string_is_identifier (sname s) = true \/ sparen s = PGNone /\ character (sname s)) /\ forall pat, sparen s = PGPattern pat -> pat <> "..".

Lemma terminals_told s s' : spelled_out s -> spelled_out s' -> show_user_symbol s = show_user_symbol s' -> s = s'.
Proof.
  intros (N & Hp) (N' & Hp') E.
  destruct s as [n p], s' as [n' p']. unfold show_user_symbol in E. cbn [sname sparen] in *.
  assert (K : forall m q r x, string_is_identifier m = true -> m ++ r = String "'" q ++ x -> False).
  { intros m q r x Hm He. destruct m as [|c m]; [discriminate|]. injection He as -> _. discriminate Hm. }
  assert (AA : forall a : string, a ++ "" = a) by (induction a as [|c a IH]; simpl; congruence).
  destruct N as [N|(-> & (q & ->))], N' as [N'|(-> & (q' & ->))].
  - destruct (span_eq _ _ _ _ _ (ident_all _ N) (ident_all _ N') (argument_stops p) (argument_stops p') E) as (-> & E').
    f_equal. destruct p as [pat| |], p' as [pat'| |]; auto; try discriminate E'.
    + injection E' as E'. apply append_cancel in E' as ->. reflexivity.
    + exfalso. injection E' as E'. apply (Hp _ eq_refl). apply (append_cancel _ _ ")"). exact E'.
    + exfalso. injection E' as E'. apply (Hp' _ eq_refl). symmetry. apply (append_cancel _ _ ")"). exact E'.
  - exfalso. eapply K; eauto.
  - exfalso. symmetry in E. eapply K; eauto.
  - rewrite !AA in E. congruence.
Qed.

Lemma terminal_not_end s : spelled_out s ->
  show_user_symbol s <> "$" /\ show_user_symbol s <> String (ascii_of_nat 206) (String (ascii_of_nat 181) "").
Proof.
  intros (N & _). destruct s as [n p]. unfold show_user_symbol. cbn [sname sparen] in *.
  destruct N as [N|(-> & (q & ->))].
  - destruct n as [|c n]; [discriminate|]. split; intros E; injection E as -> _; vm_compute in N; discriminate N.
  - split; intros E; discriminate E.
Qed.

(** The token of a conflict is one of the grammar. *)
Section Occurs.
Context {T L : Type} (g : Spec.Grammar.grammar T L).
Definition occurs (t : T) : Prop := exists r, In r g /\ In (Terminal (Token t)) (rhs r).

Lemma conflict_occurs {bm : BuildMode} `{EqDec T} `{EqDec L} fuel e t : parser_new fuel g = Err e -> conflict_at e = Some (Token t) -> occurs t.
Proof.
  intros Hp Hc. unfold parser_new in Hp.
  pose proof (indexed_build_spec True fuel g (or_introl I)) as Hs. unfold wp in Hs.
  destruct (indexed_build fuel g) as [ig|e0|w|] eqn:Hi; cbn [bind] in Hp; try discriminate.
  - destruct (table_build ig fuel) as [tb|e0|w|] eqn:Hb; cbn [bind] in Hp; try discriminate. injection Hp as ->.
    destruct (build_indexes _ _ _ Hi) as (Hix & _).
    destruct (table_build_ok ig (ix_wf _ _ Hix)) as (N & Ht). specialize (Ht True fuel (or_introl I)). rewrite Hb in Ht.
    destruct Ht as (F & _ & _ & Ht). apply (vocab_occurs fuel g ig Hi).
    assert (K : exists a, aug_rel (ivocab ig) (Token t) a).
    { destruct e; cbn in Hc, Ht; try contradiction; injection Hc as ->; destruct Ht as (γ & a & Ha & _); eauto. }
    destruct K as ([i| |] & K); cbn in K; try contradiction. eapply nth_error_In; eauto.
  - injection Hp as ->. destruct e; cbn in Hs, Hc; try discriminate; contradiction.
Qed.
End Occurs.

Lemma macro_terminal {bm : BuildMode} print ts d fuel e s : reads_as print ts d -> (forall n pat, terminal_in (d_rules d) (mk_symbol n (PGPattern pat)) -> pat <> "..") ->
  parse_grammar print fuel (tokenize_from_stream ts) = Err (GrammarError e) -> conflict_at e = Some (Token s) -> spelled_out s.
Proof.
  intros Hd Hp Hg Hc. apply read_complete in Hd as (d' & P & (_ & _ & _ & R & _)). rewrite R in Hp.
  rewrite parse_grammar_new, P in Hg. cbn [bind] in Hg.
  destruct (parser_new fuel (source (d_rules d'))) as [p|e0|w|] eqn:E; cbn [bind lift_lr] in Hg; try discriminate. injection Hg as ->.
  destruct (conflict_occurs _ fuel e s E Hc) as (r & Hr & Hs).
  unfold source in Hr. apply in_map_iff in Hr as (pr & <- & Hr). cbn in Hs. apply in_map_iff in Hs as (nd & En & Hs).
  destruct nd; try discriminate En. injection En as ->.
  assert (Ht : terminal_in (d_rules d') s) by (exists pr; auto).
  split; [exact (read_names _ _ _ _ P Ht)|]. intros pat Ep. destruct s as [n q]. cbn in Ep. subst q. eapply Hp; eauto.
Qed.

Lemma macro_conflict_told {bm : BuildMode} print ts ts' d d' fuel fuel' (show_label : string -> string) (e e' : lr_error user_symbol string) :
  reads_as print ts d -> reads_as print ts' d' ->
  (forall n pat, terminal_in (d_rules d) (mk_symbol n (PGPattern pat)) \/ terminal_in (d_rules d') (mk_symbol n (PGPattern pat)) -> pat <> "..") ->
  parse_grammar print fuel (tokenize_from_stream ts) = Err (GrammarError e) -> parse_grammar print fuel' (tokenize_from_stream ts') = Err (GrammarError e') ->
  conflict_at e <> None -> show_lr_error show_user_symbol show_label e = show_lr_error show_user_symbol show_label e' -> e = e'.
Proof.
  intros Hd Hd' Hp He He'. apply (conflict_told_on show_user_symbol show_label spelled_out).
  - exact terminals_told.
  - exact terminal_not_end.
  - intros s. apply (macro_terminal print ts d fuel e s); eauto.
  - intros s. apply (macro_terminal print ts' d' fuel' e' s); eauto.
Qed.

Definition doubtful_input : list ttree := (calc_head ++
  declares "S" [[ref "A"; tok_of "Plus"]] ++ declares "A" [[ref "B"]; [ref "C"]] ++ declares "B" [[tok_of "X"]] ++ declares "C" [[tok_of "X"]])%list.

Lemma doubtful_conflict : forall bm : BuildMode, exists d e, reads_as show doubtful_input d /\
  (forall n pat, terminal_in (d_rules d) (mk_symbol n (PGPattern pat)) -> pat <> "..") /\
  parser_new 50 (source (d_rules d)) = Err e /\ parse_grammar show 50 (tokenize_from_stream doubtful_input) = Err (GrammarError e) /\
  conflict_at e = Some (Token (mk_symbol "Plus" PGNone)) /\
  show_lr_error show_user_symbol (fun l => l) e = "Reduce conflict between rule RuleId(4) and rule RuleId(3) with lookahead Plus".
Proof.
  intros bm. destruct (reads_ok doubtful_input eq_refl) as (W & Rd & P); [vm_compute; reflexivity|].
  exists (decls_of doubtful_input), (ReduceConflict 4 3 (Token (mk_symbol "Plus" PGNone))). split; [exact Rd|].
  split. { intros n pat (r & Hr & Hs). exfalso. vm_compute in Hr. repeat destruct Hr as [<-|Hr]; try contradiction; cbn in Hs; repeat destruct Hs as [Hs|Hs]; try discriminate Hs; contradiction. }
  split; [destruct bm; vm_compute; reflexivity|]. split; [destruct bm; vm_compute; reflexivity|].
  split; vm_compute; reflexivity.
Qed.
