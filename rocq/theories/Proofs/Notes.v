(** The notes of the messages of [grammar!]. *)
From Coq Require Import Arith Bool String Ascii List Lia.
From Verif Require Import Base.Prelude Spec.Grammar Model.Error Model.TokenTree Model.Terminal Model.Constructor Model.CodeGen Model.Symbol Model.FrontEnd Model.ErrorText Model.Diagnostics.
From Verif Require Import Spec.Macro Spec.Diagnostics Spec.Notes Proofs.Macro Proofs.Diagnostics.
Import ListNotations.
Open Scope string_scope.
Open Scope list_scope.

Definition nlang := list symbol_t -> problem -> list string -> Prop.

Section Spans.
Context {span : Type} (call_site : span) (join_spans : span -> span -> option span).
Variable print : list ttree -> string.
Notation symbol_at := (symbol_at span).
Notation items := (items span).
Notation diag := (diag span).
Notation sp_stream := (sp_stream span).
Notation ty := (at_type span).

(** What a parser does with the stream [s]; if [z] is true, an error may also come
    after all of a word. *)
Definition run {A} (z : bool) (L : lang) (N : nlang) (s : sp_stream) (m : outcome diag (A * sp_stream)) : Prop :=
  match m with
  | Ok (_, s') => exists w, ss_iter span s = map inl w ++ ss_iter span s' /\ L (types_at w)
  | Err d => exists w its us p text ns, ss_iter span s = map inl w ++ its /\ (z = false -> us <> []) /\ L (types_at w ++ us) /\
      N (types_at w) p ns /\ stated its p text (dg_span span d) /\ dg_message span d = with_notes text ns
  | _ => True
  end.

Lemma run_ret {A} z (L : lang) N s (a : A) : L [] -> run z L N s (Ok (a, s)).
Proof. intros H. exists []. auto. Qed.

Lemma run_weaken {A} z (L L' : lang) (N N' : nlang) s (m : outcome diag (A * sp_stream)) : run z L N s m -> (forall w, L w -> L' w) ->
  (forall w p ns, N w p ns -> N' w p ns) -> run z L' N' s m.
Proof.
  intros H I J. destruct m as [[a s']|d| |]; auto.
  - destruct H as (w & E & Lw). exists w. auto.
  - destruct H as (w & its & us & p & text & ns & E & Z & Lw & Hn & Hs & Hm). exists w, its, us, p, text, ns. auto 10.
Qed.

Lemma run_bind_at {A B} z1 z (L1 L2 L : lang) (N1 N2 N : nlang) s (m : outcome diag (A * sp_stream)) (k : A * sp_stream -> outcome diag (B * sp_stream)) :
  run z1 L1 N1 s m -> (forall a s', m = Ok (a, s') -> run z L2 N2 s' (k (a, s'))) -> (exists v, L2 v /\ (v = [] -> z1 = true -> z = true)) ->
  (forall w v, L1 w -> L2 v -> L (w ++ v)) ->
  (forall w p ns, N1 w p ns -> N w p ns) -> (forall w v p ns, L1 w -> N2 v p ns -> N (w ++ v) p ns) -> run z L N s (bind m k).
Proof.
  intros H K (v & Lv & Hv) HL HN1 HN2. destruct m as [[a s1]|d| |]; cbn [bind]; auto.
  - destruct H as (w & E & Lw). specialize (K a s1 eq_refl). destruct (k (a, s1)) as [[b s2]|d| |]; auto.
    + destruct K as (w' & E' & Lw'). exists (w ++ w'). split; [rewrite E, E', map_app, app_assoc; reflexivity|]. rewrite types_app. auto.
    + destruct K as (w' & its & us & p & text & ns & E' & Z & Lw' & Hn & Hs & Hm). exists (w ++ w'), its, us, p, text, ns.
      split; [rewrite E, E', map_app, app_assoc; reflexivity|]. split; [exact Z|]. rewrite types_app, <- app_assoc. auto 10.
  - destruct H as (w & its & us & p & text & ns & E & Z & Lw & Hn & Hs & Hm). exists w, its, (us ++ v), p, text, ns.
    split; [exact E|]. split.
    + intros Hz H0. apply app_eq_nil in H0. destruct H0 as [H0 H1]. destruct z1; [specialize (Hv H1 eq_refl); congruence|now apply Z].
    + rewrite app_assoc. auto.
Qed.

Lemma run_bind {A B} z1 z (L1 L2 L : lang) (N1 N2 N : nlang) s (m : outcome diag (A * sp_stream)) (k : A * sp_stream -> outcome diag (B * sp_stream)) :
  run z1 L1 N1 s m -> (forall a s', run z L2 N2 s' (k (a, s'))) -> (exists v, L2 v /\ (v = [] -> z1 = true -> z = true)) ->
  (forall w v, L1 w -> L2 v -> L (w ++ v)) ->
  (forall w p ns, N1 w p ns -> N w p ns) -> (forall w v p ns, L1 w -> N2 v p ns -> N (w ++ v) p ns) -> run z L N s (bind m k).
Proof. intros H K. apply (run_bind_at z1 z L1 L2 L N1 N2 N s m k H). intros a s' _. apply K. Qed.

(** After [x]. *)
Lemma run_step {A} z (L : lang) (N : nlang) s x it cur (m : outcome diag (A * sp_stream)) : ss_iter span s = inl x :: it ->
  run z (fun w => L (ty x :: w)) (fun w => N (ty x :: w)) (mk_stream span it cur) m -> run z L N s m.
Proof.
  intros E H. destruct m as [[a s']|d| |]; auto.
  - destruct H as (w & E' & Lw). exists (x :: w). split; [|exact Lw]. rewrite E. cbn in *. now rewrite E'.
  - destruct H as (w & its & us & p & text & ns & E' & Z & Lw & Hn & Hs & Hm). exists (x :: w), its, us, p, text, ns.
    split; [|auto 10]. rewrite E. cbn in *. now rewrite E'.
Qed.

(** Languages that go on. *)
Definition goes_on (L : lang) : Prop := exists v, v <> [] /\ L v.

Lemma no_symbol {A} z (L : lang) (N : nlang) s d ns : ss_iter span s = [] \/ (exists d' it, ss_iter span s = inr d' :: it) -> goes_on L -> N [] NoSymbol ns ->
  (ss_iter span s = [] -> dg_message span d = with_notes (error_text UnexpectedEnd) ns) ->
  (forall d' it, ss_iter span s = inr d' :: it -> dg_message span d = with_notes (dg_message span d') ns /\ dg_span span d = dg_span span d') ->
  run z L N s (Err d : outcome diag (A * sp_stream)).
Proof.
  intros [E|(d' & it & E)] (us & Hu & HL) Hn H1 H2.
  - exists [], [], us, NoSymbol, (error_text UnexpectedEnd), ns. rewrite E. cbn. auto 10.
  - destruct (H2 d' it E) as (Hm & Hp). exists [], (inr d' :: it), us, NoSymbol, (dg_message span d'), ns. rewrite E. cbn.
    split; [reflexivity|]. split; [auto|]. split; [exact HL|]. split; [exact Hn|]. split; [|exact Hm]. right. exists d', it. auto.
Qed.

Lemma wrong_symbol {A} z (L : lang) (N : nlang) s x it e : ss_iter span s = inl x :: it -> goes_on L -> N [] WrongSymbol [] ->
  run z L N s (make_err span (at_meta span x) (error_text e) : outcome diag (A * sp_stream)).
Proof.
  intros E (us & Hu & HL) Hn. exists [], (inl x :: it), us, WrongSymbol, (error_text e), []. rewrite E. cbn.
  split; [reflexivity|]. split; [auto|]. split; [exact HL|]. split; [exact Hn|]. split; [|reflexivity]. exists x, it, e. auto.
Qed.

Lemma expect_bind {A} z (L : lang) (N : nlang) s (k : symbol_at * sp_stream -> outcome diag (A * sp_stream)) : goes_on L -> N [] NoSymbol [] ->
  (forall x it, ss_iter span s = inl x :: it -> run z L N s (k (x, mk_stream span it (ss_current_span span s)))) ->
  run z L N s (bind (sp_expect_symbol span call_site s) k).
Proof.
  intros Li Hn H. unfold sp_expect_symbol, end_of_input. destruct (ss_iter span s) as [|[x|d] it] eqn:E; cbn [bind].
  - apply (no_symbol z L N s _ []); auto. intros d' it' E'. congruence.
  - now apply H.
  - apply (no_symbol z L N s d []); eauto; [intros E'; congruence|]. intros d' it' E'. rewrite E in E'. injection E' as <- _. auto.
Qed.

Lemma peek_bind {A} z (L : lang) (N : nlang) s note (k : symbol_at * sp_stream -> outcome diag (A * sp_stream)) : goes_on L -> N [] NoSymbol [note] ->
  (forall x it, ss_iter span s = inl x :: it -> run z L N s (k (x, mk_stream span it (Some (span_of x))))) ->
  run z L N s (bind (intercept span note (sp_peek_expect_symbol span call_site s)) k).
Proof.
  intros Li Hn H. unfold sp_peek_expect_symbol, end_of_input. destruct (ss_iter span s) as [|[x|d] it] eqn:E; unfold intercept; cbn [map_err bind].
  - apply (no_symbol z L N s _ [note]); auto. intros d' it' E'. congruence.
  - now apply H.
  - apply (no_symbol z L N s _ [note]); eauto; [intros E'; congruence|]. intros d' it' E'. rewrite E in E'. injection E' as <- _. auto.
Qed.
Lemma peek_bind0 {A} z (L : lang) (N : nlang) s (k : symbol_at * sp_stream -> outcome diag (A * sp_stream)) : goes_on L -> N [] NoSymbol [] ->
  (forall x it, ss_iter span s = inl x :: it -> run z L N s (k (x, mk_stream span it (Some (span_of x))))) ->
  run z L N s (bind (sp_peek_expect_symbol span call_site s) k).
Proof.
  intros Li Hn H. unfold sp_peek_expect_symbol, end_of_input. destruct (ss_iter span s) as [|[x|d] it] eqn:E; cbn [bind].
  - apply (no_symbol z L N s _ []); auto. intros d' it' E'. congruence.
  - now apply H.
  - apply (no_symbol z L N s _ []); eauto; [intros E'; congruence|]. intros d' it' E'. rewrite E in E'. injection E' as <- _. auto.
Qed.

Lemma with_notes_more text ns n : with_notes text (ns ++ [n]) = (with_notes text ns ++ ": " ++ n)%string.
Proof. unfold with_notes. now rewrite fold_left_app. Qed.

Lemma run_intercept {A} z (L : lang) (N : nlang) s note (m : outcome diag (A * sp_stream)) : run z L N s m ->
  run z L (fun w p ns => exists ns', ns = ns' ++ [note] /\ N w p ns') s (intercept span note m).
Proof.
  intros H. destruct m as [[a s']|d| |]; unfold intercept; cbn [map_err]; auto.
  destruct H as (w & its & us & p & text & ns & E & Z & Lw & Hn & Hs & Hm). exists w, its, us, p, text, (ns ++ [note]).
  split; [exact E|]. split; [exact Z|]. split; [exact Lw|]. split; [eauto|]. split; [exact Hs|]. cbn [dg_message]. now rewrite with_notes_more, Hm.
Qed.

(** Parsers that add no notes. *)
Definition silent : nlang := fun _ _ ns => ns = [].

Lemma matches_on r : inhabited r -> ~ matches r [] -> goes_on (matches r).
Proof. intros H Hn. destruct (inhabited_ok r H) as (xs & Hx). exists xs. split; [intros ->; auto|exact Hx]. Qed.
Lemma on_seq r1 r2 : inhabited r2 -> goes_on (matches r1) -> goes_on (matches (RSeq r1 r2)).
Proof.
  intros H (v & Hv & Hm). destruct (inhabited_ok r2 H) as (xs & Hx). exists (v ++ xs). split; [|now constructor].
  intros E. apply app_eq_nil in E. tauto.
Qed.
Lemma on_sym (p : symbol_t -> Prop) x : p x -> goes_on (matches (RSym p)).
Proof. intros H. exists [x]. split; [discriminate|now constructor]. Qed.

Lemma with_run z (N : nlang) s cmp (p : symbol_t -> Prop) e : (forall u, cmp u = true -> p u) -> (exists u, p u) -> N [] NoSymbol [] -> N [] WrongSymbol [] ->
  run z (matches (RSym p)) N s (sp_expect_symbol_with span call_site s cmp (error_text e)).
Proof.
  intros H (u & Hu) N1 N2. unfold sp_expect_symbol_with. apply expect_bind; [now apply (on_sym p u)|exact N1|].
  intros x it E. cbv beta iota. destruct (cmp (ty x)) eqn:C.
  - apply (run_step z _ N s x it (ss_current_span span s) _ E). apply run_ret. constructor. auto.
  - apply (wrong_symbol z _ N s x it e E); [now apply (on_sym p u)|exact N2].
Qed.

(** ** Types *)
Definition type_silence : nlang := fun w p ns => p = NoSymbol /\ Forall in_type w /\ ns = [type_note].
Definition type_notes : nlang := fun w p ns => p = NoSymbol /\ ((w = [] /\ ns = []) \/ exists x xs, w = x :: xs /\ Forall in_type xs /\ ns = [type_note]).

Lemma type_rest_run fuel : forall m s, run false (matches (RStar (RSym in_type))) type_silence s (sp_type_rest span call_site join_spans fuel m s).
Proof.
  induction fuel as [|fuel IH]; intros m s; [exact I|]. cbn [sp_type_rest].
  assert (On : goes_on (matches (RStar (RSym in_type)))).
  { exists [SOp Bang]. split; [discriminate|]. apply (m_star_cons _ [_] []); [|constructor]. constructor. split; discriminate. }
  apply peek_bind; [exact On|repeat split; constructor|]. intros x it E. cbv beta iota.
  destruct (is_op (ty x) Arrow || is_op (ty x) Semicolon) eqn:C; [apply run_ret; constructor|].
  assert (Hx : in_type (ty x)) by (apply orb_false_elim in C as [C1 C2]; apply is_op_no in C1, C2; now split).
  eapply run_step; [exact E|]. eapply run_weaken; [apply IH| |].
  - intros w Hw. apply (m_star_cons _ [_] w); [now constructor|exact Hw].
  - intros w p ns (Hp & Hw & Hns). repeat split; auto.
Qed.

Lemma type_run s : run false (matches a_type) type_notes s (sp_type_parse span call_site join_spans s).
Proof.
  unfold sp_type_parse. apply expect_bind; [apply on_seq; [cbn; trivial|now apply (on_sym _ (SOp Bang))]|unfold type_notes; auto|].
  intros x it E. cbv beta iota. eapply run_step; [exact E|]. eapply run_weaken; [apply type_rest_run| |].
  - intros w Hw. apply (m_seq _ _ [_] w); [now constructor|exact Hw].
  - intros w p ns (Hp & Hw & Hns). split; [exact Hp|]. right. eauto.
Qed.

Definition unmoved : nlang := fun _ p ns => p <> Misfit /\ ns = [].
Lemma ident_run s : run false (matches an_ident) unmoved s (sp_ident_parse span call_site s).
Proof.
  assert (On : goes_on (matches an_ident)) by (apply (on_sym _ (SIdent "")); eauto).
  unfold sp_ident_parse. apply expect_bind; [exact On|split; [discriminate|reflexivity]|]. intros x it E. cbv beta iota. destruct (ty x) as [| n | | | |] eqn:T.
  2: { eapply run_step; [exact E|]. apply run_ret. rewrite T. constructor. eauto. }
  all: apply (wrong_symbol false _ unmoved s x it ExpectedIdentifier E); [exact On|split; [discriminate|reflexivity]].
Qed.

Ltac ops := let u := fresh in let H := fresh in intros u H; apply is_op_ok in H; auto.
Ltac quiet := first [solve [intros ? ? ? H; exact H]|solve [intros ? ? ? ? ? H; exact H]].

Lemma ref_run s : run false (matches a_ref) (fun w p ns => ns = [] /\ List.length w <= 2 /\ p <> Misfit) s (sp_production_ref_parse span call_site join_spans s).
Proof.
  unfold sp_production_ref_parse.
  eapply (run_bind false false (matches (op BeginProd)) (matches (RSeq an_ident (RSeq (op EndProd) REmpty))) _
    (fun w p ns => ns = [] /\ w = [] /\ p <> Misfit) (fun w p ns => ns = [] /\ List.length w <= 1 /\ p <> Misfit));
    [apply (with_run false _ s (fun x => is_op x BeginProd) (eq (SOp BeginProd)) ExpectedBeginProd); [ops|eauto| |]; repeat split; discriminate| | | | |].
  - intros m s1. cbv beta iota.
    assert (On : goes_on (matches (RSeq an_ident (RSeq (op EndProd) REmpty)))) by (apply on_seq; [cbn; eauto|apply (on_sym _ (SIdent "")); eauto]).
    apply expect_bind; [exact On|repeat split; [cbn; lia|discriminate]|].
    intros x it E. cbv beta iota. destruct (ty x) as [|n| | | |] eqn:T.
    1, 3-6: apply (wrong_symbol false _ _ s1 x it ExpectedProductionName E); [exact On|repeat split; [cbn; lia|discriminate]].
    cbn [bind]. eapply run_step; [exact E|].
    eapply (run_bind false false (matches (op EndProd)) (matches REmpty) _ (fun w p ns => ns = [] /\ w = [] /\ p <> Misfit) (fun _ _ _ => False));
      [apply (with_run false _ _ (fun x => is_op x EndProd) (eq (SOp EndProd)) ExpectedEndProd); [ops|eauto| |]; repeat split; discriminate| | | | |].
    + intros m' s'. cbv beta iota. apply run_ret. constructor.
    + exists []. split; [constructor|auto].
    + intros w v Hw Hv. rewrite T. apply (m_seq _ _ [_]); [constructor; eauto|]. now constructor.
    + intros w p ns (-> & -> & Hp). repeat split; [cbn; lia|exact Hp].
    + intros w v p ns _ [].
  - exists [SIdent ""; SOp EndProd]. split; [|discriminate]. apply (m_seq _ _ [_] [_]); [constructor; eauto|]. apply (m_seq _ _ [_] []); constructor; reflexivity.
  - intros w v Hw Hv. now constructor.
  - intros w p ns (-> & -> & Hp). repeat split; [cbn; lia|exact Hp].
  - intros w v p ns Hw (-> & Hl & Hp). apply sym_inv in Hw. destruct Hw as (x & -> & _). repeat split; [cbn; lia|exact Hp].
Qed.
Lemma ref_silent s : run false (matches a_ref) silent s (sp_production_ref_parse span call_site join_spans s).
Proof. eapply run_weaken; [apply ref_run|auto|]. now intros w p ns (H & _). Qed.

(** ** Rules *)
Lemma on_node : goes_on (matches a_node).
Proof. exists [SOp Bang]. split; [discriminate|]. do 3 apply m_right. now constructor. Qed.

Lemma terminal_run s : run false (matches a_node) silent s (sp_terminal_parse span call_site print s).
Proof.
  unfold sp_terminal_parse. apply expect_bind; [exact on_node|reflexivity|].
  intros x it E. cbv beta iota. destruct (ty x) as [o|n|l| | |] eqn:T.
  4-6: now apply (wrong_symbol false _ silent s x it UnexpectedToken E on_node).
  - destruct o; try (now apply (wrong_symbol false _ silent s x it UnexpectedToken E on_node)).
    eapply run_step; [exact E|]. apply run_ret. rewrite T. do 3 apply m_right. now constructor.
  - eapply run_step; [exact E|]. unfold sp_parse_ident.
    assert (Hn : matches a_node [ty x]).
    { rewrite T. apply m_right, m_right, m_left. apply (m_seq _ _ [_] []); [constructor; eauto|]. apply m_left. constructor. }
    apply peek_bind0; [|reflexivity|].
    + exists [SParen []]. split; [discriminate|]. rewrite T. apply m_right, m_right, m_left. apply (m_seq _ _ [_] [_]); [constructor; eauto|]. apply m_right. constructor. eauto.
    + intros y it' E'. cbv beta iota. destruct (ty y) as [| | | |ts|] eqn:Ty; try (apply run_ret; exact Hn).
      destruct (is_wildcard ts); (eapply run_step; [exact E'|]); apply run_ret; rewrite T, Ty;
        apply m_right, m_right, m_left; (apply (m_seq _ _ [_] [_]); [constructor; eauto|]); apply m_right; constructor; eauto.
  - eapply run_step; [exact E|]. apply run_ret. rewrite T. apply m_right, m_left. constructor. eauto.
Qed.

Lemma node_run s : run false (matches a_node) silent s (sp_production_node_parse span call_site join_spans print s).
Proof.
  unfold sp_production_node_parse. apply peek_bind0; [exact on_node|reflexivity|]. intros x it E. cbv beta iota.
  destruct (ty x) as [o| | | | |]; try apply terminal_run. destruct o; try apply terminal_run.
  eapply (run_bind false false _ (matches REmpty) _ _ silent); [apply ref_silent| | | | |]; try quiet.
  - intros [n m] s'. cbv beta iota. apply run_ret. constructor.
  - exists []. split; [constructor|auto].
  - intros w v Hw Hv. inversion Hv. rewrite app_nil_r. now apply m_left.
Qed.

Definition some_nodes : rx := RSeq (RStar a_node) (maybe a_block).
Lemma nodes_cons w v : matches a_node w -> matches some_nodes v -> matches some_nodes (w ++ v).
Proof. intros Hw Hv. apply seq_inv in Hv. destruct Hv as (a & b & -> & Ha & Hb). rewrite app_assoc. constructor; [now constructor|exact Hb]. Qed.
Lemma nodes_nil : matches some_nodes [].
Proof. apply (m_seq _ _ [] []); [constructor|apply m_left; constructor]. Qed.

Lemma rule_loop_run fuel : forall m rule s, run false (matches some_nodes) silent s (sp_rule_loop span call_site join_spans print fuel m rule s).
Proof.
  induction fuel as [|fuel IH]; intros m rule s; [exact I|]. cbn [sp_rule_loop].
  assert (Go : run false (matches some_nodes) silent s
    (bind (sp_production_node_parse span call_site join_spans print s) (fun '(node, s) =>
       sp_rule_loop span call_site join_spans print fuel (merge span join_spans m (snd node)) (rule ++ [node]) s))).
  { eapply (run_bind false false _ (matches some_nodes) _ _ silent); [apply node_run| | | | |]; try quiet.
    - intros nd s'. cbv beta iota. apply IH.
    - exists []. split; [apply nodes_nil|auto].
    - apply nodes_cons. }
  apply peek_bind0; [|reflexivity|].
  { destruct on_node as (v & Hv & Hm). exists (v ++ []). split; [now rewrite app_nil_r|]. apply nodes_cons; [exact Hm|apply nodes_nil]. }
  intros x it E. cbv beta iota.
  destruct (ty x) as [o| | |d ts| |] eqn:T; try exact Go.
  - destruct o; try exact Go; apply run_ret, nodes_nil.
  - eapply run_step; [exact E|]. apply run_ret. rewrite T. apply (m_seq _ _ [] [_]); [constructor|]. apply m_right. constructor. eauto.
Qed.

Lemma misfit {A} (L : lang) (N : nlang) s d : L [] -> N [] Misfit [] ->
  dg_message span d = error_text EpsilonNotAlone \/ dg_message span d = error_text DifferentReturnTypes -> run true L N s (Err d : outcome diag (A * sp_stream)).
Proof.
  intros HL HN H. exists [], (ss_iter span s), [], Misfit, (dg_message span d), []. cbn. repeat split; auto. discriminate.
Qed.

Lemma parse_rule_run s name rt : run true (matches an_alternative) silent s (sp_parse_rule span call_site join_spans print s name rt).
Proof.
  unfold sp_parse_rule. eapply (run_bind false true _ (matches some_nodes) _ _ silent); [apply node_run| | | | |]; try quiet.
  - intros nd s1. cbv beta iota. eapply (run_bind false true (matches some_nodes) (matches REmpty) (matches some_nodes) _ silent); [apply rule_loop_run| | | | |]; try quiet.
    + intros [[m rule] block] s2. cbv beta iota.
      destruct (find (fun node => pnode_is_epsilon (fst node)) rule); [destruct (1 <? List.length rule)%nat|]; try (apply run_ret; constructor).
      apply misfit; [constructor|reflexivity|left; reflexivity].
    + exists []. split; [constructor|auto].
    + intros w v Hw Hv. inversion Hv. now rewrite app_nil_r.
  - exists []. split; [apply nodes_nil|auto].
  - intros w v Hw Hv. now constructor.
Qed.

Definition more_rules : rx := RSeq (RStar (RSeq (op Pipe) an_alternative)) (RSeq (op Semicolon) REmpty).
Lemma more_end : matches more_rules [SOp Semicolon].
Proof. apply (m_seq _ _ [] [_]); [constructor|]. apply (m_seq _ _ [_] []); constructor; reflexivity. Qed.

Lemma alternatives_run fuel : forall name rt rules s, run false (matches more_rules) silent s (sp_alternatives span call_site join_spans print fuel name rt rules s).
Proof.
  induction fuel as [|fuel IH]; intros name rt rules s; [exact I|]. cbn [sp_alternatives].
  assert (On : goes_on (matches more_rules)) by (exists [SOp Semicolon]; split; [discriminate|exact more_end]).
  apply expect_bind; [exact On|reflexivity|]. intros x it E. cbv beta iota.
  destruct (ty x) as [o| | | | |] eqn:T; try (now apply (wrong_symbol false _ silent s x it ExpectedSemicolonOrPipe E)).
  destruct o; try (now apply (wrong_symbol false _ silent s x it ExpectedSemicolonOrPipe E)).
  - eapply run_step; [exact E|]. apply run_ret. rewrite T. exact more_end.
  - eapply run_step; [exact E|]. eapply (run_bind true false _ (matches more_rules) _ _ silent); [apply parse_rule_run| | | | |]; try quiet.
    + intros r s'. cbv beta iota. apply IH.
    + exists [SOp Semicolon]. split; [exact more_end|discriminate].
    + intros w v Hw Hv. rewrite T. apply seq_inv in Hv. destruct Hv as (a & b & -> & Ha & Hb).
      rewrite app_assoc. apply (m_seq _ _ (_ :: w ++ a) b); [|exact Hb].
      apply (m_star_cons _ (_ :: w) a); [|exact Ha]. apply (m_seq _ _ [_] w); [now constructor|exact Hw].
Qed.

Definition return_type : rx := maybe (RSeq (op Colon) a_type).
Definition begins_type (w : list symbol_t) : Prop := exists x xs, w = SOp Colon :: x :: xs /\ Forall in_type xs.
Definition after_ref : nlang := fun w p ns => (p = NoSymbol -> begins_type w -> ns = [type_note]) /\ (~ (p = NoSymbol /\ begins_type w) -> ns = []).
Lemma quiet_after w p : ~ begins_type w -> after_ref w p [].
Proof. intros H. split; [tauto|reflexivity]. Qed.
Lemma not_type_nil : ~ begins_type [].
Proof. intros (x & xs & H & _). discriminate. Qed.

Lemma return_type_run s : run false (matches return_type) after_ref s (sp_maybe_parse_return_type span call_site join_spans s).
Proof.
  assert (N : matches return_type []) by (apply m_left; constructor).
  assert (On : goes_on (matches return_type)).
  { exists [SOp Colon; SOp Bang]. split; [discriminate|]. apply m_right. apply (m_seq _ _ [_] [_]); [now constructor|]. apply (m_seq _ _ [_] []); now constructor. }
  unfold sp_maybe_parse_return_type. apply peek_bind0; [exact On|apply quiet_after, not_type_nil|]. intros x it E. cbv beta iota.
  destruct (ty x) as [o| | | | |] eqn:T; try (apply run_ret; exact N). destruct o; try (apply run_ret; exact N).
  eapply run_step; [exact E|]. eapply (run_bind false false (matches a_type) (matches REmpty) _ _ (fun _ _ _ => False)); [apply type_run| | | | |].
  - intros m s'. cbv beta iota. apply run_ret. constructor.
  - exists []. split; [constructor|auto].
  - intros w v Hw Hv. inversion Hv. rewrite app_nil_r, T. apply m_right. apply (m_seq _ _ [_] w); [now constructor|exact Hw].
  - intros w p ns (-> & [(-> & ->)|(y & ys & -> & Hy & ->)]); rewrite T.
    + apply quiet_after. intros (? & ? & H & _). discriminate.
    + split; [reflexivity|]. intros H. destruct H. split; [reflexivity|]. exists y, ys. auto.
  - intros w v p ns _ [].
Qed.

(** After a type, or none, the arrow ends it. *)
Lemma arrow_ends w v p : matches return_type w -> after_ref (w ++ SOp Arrow :: v) p [].
Proof.
  intros Hw. apply quiet_after. intros (x & xs & H & F). apply alt_inv in Hw. destruct Hw as [Hw|Hw].
  - apply empty_inv in Hw. subst w. discriminate.
  - apply seq_inv in Hw. destruct Hw as (a & b & -> & Ha & Hb). apply sym_inv in Ha. destruct Ha as (c & -> & <-).
    apply seq_inv in Hb. destruct Hb as (b1 & b2 & -> & H1 & _). apply sym_inv in H1. destruct H1 as (y & -> & _).
    cbn in H. injection H as <- <-. apply Forall_app in F. destruct F as [_ F]. inversion F as [|? ? H1 _]. destruct H1 as [H1 _]. now apply H1.
Qed.

(** The problem after a type, before the arrow. *)
Lemma type_then w : matches return_type w -> after_ref w WrongSymbol [] /\ after_ref w Misfit [].
Proof. intros _. split; (split; [discriminate|reflexivity]). Qed.

Definition after_type : rx := RSeq (op Arrow) (RSeq alternatives_rx (RSeq (op Semicolon) REmpty)).
Lemma after_type_word : matches after_type [SOp Arrow; SOp Bang; SOp Semicolon].
Proof.
  apply (m_seq _ _ [_] [_; _]); [now constructor|]. apply (m_seq _ _ [_] [_]).
  - apply (m_seq _ _ [_] []); [|constructor]. apply (m_seq _ _ [_] []); [do 3 apply m_right; now constructor|apply nodes_nil].
  - apply (m_seq _ _ [_] []); now constructor.
Qed.
Lemma more_alternatives_ok w v : matches an_alternative w -> matches more_rules v -> matches (RSeq alternatives_rx (RSeq (op Semicolon) REmpty)) (w ++ v).
Proof. intros Hw Hv. apply seq_inv in Hv. destruct Hv as (a & b & -> & Ha & Hb). rewrite app_assoc. constructor; [|exact Hb]. now constructor. Qed.

Definition after_rt : nlang := fun w p ns => ns = [] /\ ((w = [] /\ p <> NoSymbol) \/ exists v, w = SOp Arrow :: v).

(** No symbol may be missing after a type: the type would go on. *)
Lemma type_rest_stops fuel : forall m s, match sp_type_rest span call_site join_spans fuel m s with Ok (_, s') => exists x it, ss_iter span s' = inl x :: it | _ => True end.
Proof.
  induction fuel as [|fuel IH]; intros m s1; [exact I|]. cbn [sp_type_rest]. unfold sp_peek_expect_symbol, intercept, end_of_input.
  destruct (ss_iter span s1) as [|[x|d] it] eqn:E; cbn [map_err bind]; auto. destruct (_ || _); [rewrite E; eauto|]. apply IH.
Qed.
Lemma return_type_stops s : match sp_maybe_parse_return_type span call_site join_spans s with
  | Ok (_, s') => exists x it, ss_iter span s' = inl x :: it
  | _ => True
  end.
Proof.
  pose proof type_rest_stops as R.
  unfold sp_maybe_parse_return_type, sp_peek_expect_symbol, end_of_input. destruct (ss_iter span s) as [|[x|d] it] eqn:E; cbn [bind]; auto.
  assert (T : forall s, match ('(ty, s) <- sp_type_parse span call_site join_spans s ;; Ok (Some ty, s)) with Ok (_, s') => exists x it, ss_iter span s' = inl x :: it | _ => True end).
  { intros s1. unfold sp_type_parse, sp_expect_symbol, end_of_input. destruct (ss_iter span s1) as [|[y|d] it']; cbn [bind]; auto.
    match goal with |- context [sp_type_rest ?a ?b ?c ?d ?e ?f] => specialize (R d e f); destruct (sp_type_rest a b c d e f) as [[r1 r2]| | |] end; cbn [bind]; auto. }
  destruct (ty x) as [o| | | | |]; try (rewrite E; eauto). destruct o; try (rewrite E; eauto). apply T.
Qed.

Definition decl_notes : nlang := fun w p ns => (p = NoSymbol -> in_return_type w -> ns = [type_note]) /\ (~ (p = NoSymbol /\ in_return_type w) -> ns = []).

Lemma ref_length w : matches a_ref w -> List.length w = 3.
Proof.
  intros H. apply seq_inv in H. destruct H as (a & b & -> & Ha & H). apply sym_inv in Ha. destruct Ha as (x & -> & _).
  apply seq_inv in H. destruct H as (b1 & b2 & -> & Hb & H). apply sym_inv in Hb. destruct Hb as (y & -> & _).
  apply seq_inv in H. destruct H as (c1 & c2 & -> & Hc & H). apply sym_inv in Hc. destruct Hc as (z & -> & _). apply empty_inv in H. now subst.
Qed.
Lemma ref_then w v p ns : matches a_ref w -> after_ref v p ns -> decl_notes (w ++ v) p ns.
Proof.
  intros Hw (H1 & H2).
  assert (Same : in_return_type (w ++ v) <-> begins_type v).
  { split.
    - intros (ref & x & ys & E & Hr & F). apply ref_length in Hw, Hr. apply (f_equal (skipn 3)) in E.
      rewrite !skipn_app, Hw, Hr, (skipn_all2 w), (skipn_all2 ref) in E by lia. cbn in E. exists x, ys. auto.
    - intros (x & ys & -> & F). exists w, x, ys. auto. }
  unfold decl_notes. rewrite Same. split; assumption.
Qed.
Lemma in_ref w p : List.length w <= 2 -> decl_notes w p [].
Proof.
  intros H. split; [|reflexivity]. intros _ (ref & x & ys & -> & Hr & _). apply ref_length in Hr. rewrite app_length in H. cbn in H. lia.
Qed.

Definition a_rest : rx := RSeq return_type after_type.

Lemma misfit_on {A} z (L : lang) (N : nlang) s d : goes_on L -> N [] Misfit [] ->
  dg_message span d = error_text EpsilonNotAlone \/ dg_message span d = error_text DifferentReturnTypes -> run z L N s (Err d : outcome diag (A * sp_stream)).
Proof.
  intros (us & Hu & HL) HN H. exists [], (ss_iter span s), us, Misfit, (dg_message span d), []. cbn. repeat split; auto.
Qed.

Lemma add_text m label rt : match sp_label_types_add span print m label rt with Err d => dg_message span d = error_text DifferentReturnTypes | _ => True end.
Proof.
  unfold sp_label_types_add. destruct (hm_get label m) as [ex|]; [|exact I]. destruct (negb _); [|exact I]. destruct rt, ex; try exact I; reflexivity.
Qed.

Lemma on_after_type : goes_on (matches after_type).
Proof. exists [SOp Arrow; SOp Bang; SOp Semicolon]. split; [discriminate|exact after_type_word]. Qed.

Lemma after_type_run s m name rt : (exists x it, ss_iter span s = inl x :: it) -> run false (matches after_type) after_rt s
  (label_map <- sp_label_types_add span print m name rt ;;
   '(_, s) <- sp_expect_symbol_with span call_site s (fun x => is_op x Arrow) "Expected `=>` to follow production name" ;;
   '(first_rule, s) <- sp_parse_rule span call_site join_spans print s name rt ;;
   '(rules, s) <- sp_alternatives span call_site join_spans print (S (List.length (ss_iter span s))) name rt [first_rule] s ;;
   Ok (rules, label_map, s)).
Proof.
  intros (x & it & E). pose proof (add_text m name rt) as Ad.
  destruct (sp_label_types_add span print m name rt) as [lm|d| |]; cbn [bind]; try exact I.
  2: { apply misfit_on; [exact on_after_type| |auto]. split; [reflexivity|]. left. split; [reflexivity|discriminate]. }
  unfold sp_expect_symbol_with, sp_expect_symbol. rewrite E. cbn [bind]. destruct (is_op (ty x) Arrow) eqn:C; cbn [bind].
  2: { change (run false (matches after_type) after_rt s (make_err span (at_meta span x) (error_text ExpectedArrow) : outcome diag (list (rule_at span) * sp_label_type_map span * sp_stream))).
       apply (wrong_symbol false _ _ s x it ExpectedArrow E on_after_type). split; [reflexivity|]. left. split; [reflexivity|discriminate]. }
  apply is_op_ok in C. eapply run_step; [exact E|].
  eapply (run_bind true false (matches an_alternative) (matches more_rules) _ silent silent); [apply parse_rule_run| | | | |].
  - intros r s4. cbv beta iota. eapply (run_bind false false (matches more_rules) (matches REmpty) _ silent silent); [apply alternatives_run| | | | |]; try quiet.
    + intros rs s5. cbv beta iota. apply run_ret. constructor.
    + exists []. split; [constructor|auto].
    + intros w v Hw Hv. inversion Hv. now rewrite app_nil_r.
  - exists [SOp Semicolon]. split; [exact more_end|discriminate].
  - intros w v Hw Hv. rewrite C. apply (m_seq _ _ [_]); [now constructor|]. now apply more_alternatives_ok.
  - intros w p ns ->. split; [reflexivity|]. right. rewrite C. eauto.
  - intros w v p ns _ ->. split; [reflexivity|]. right. rewrite C. eauto.
Qed.

Lemma rest_of_declaration s m name : run false (matches a_rest) after_ref s
  ('(return_type, s) <- sp_maybe_parse_return_type span call_site join_spans s ;;
   label_map <- sp_label_types_add span print m name return_type ;;
   '(_, s) <- sp_expect_symbol_with span call_site s (fun x => is_op x Arrow) "Expected `=>` to follow production name" ;;
   '(first_rule, s) <- sp_parse_rule span call_site join_spans print s name return_type ;;
   '(rules, s) <- sp_alternatives span call_site join_spans print (S (List.length (ss_iter span s))) name return_type [first_rule] s ;;
   Ok (rules, label_map, s)).
Proof.
  pose proof (return_type_run s) as Hr. pose proof (return_type_stops s) as Hs.
  destruct (sp_maybe_parse_return_type span call_site join_spans s) as [[rt s1]|d| |]; cbn [bind]; try exact I.
  2: { destruct Hr as (w & its & us & p & text & ns & E & Z & Lw & Hn & Ht & Hm). exists w, its, (us ++ [SOp Arrow; SOp Bang; SOp Semicolon]), p, text, ns.
       split; [exact E|]. split; [intros _ H; apply app_eq_nil in H; destruct H; discriminate|]. split; [|auto]. rewrite app_assoc. constructor; [exact Lw|exact after_type_word]. }
  destruct Hr as (w & E & Lw). pose proof (after_type_run s1 m name rt Hs) as K.
  destruct (label_map <- sp_label_types_add span print m name rt ;; _) as [[r s2]|d| |]; auto.
  - destruct K as (w' & E' & Lw'). exists (w ++ w'). split; [rewrite E, E', map_app, app_assoc; reflexivity|]. rewrite types_app. now constructor.
  - destruct K as (w' & its & us & p & text & ns & E' & Z & Lw' & Hn & Ht & Hm). exists (w ++ w'), its, us, p, text, ns.
    split; [rewrite E, E', map_app, app_assoc; reflexivity|]. split; [exact Z|]. rewrite types_app, <- app_assoc. split; [now constructor|]. split; [|auto].
    destruct Hn as (-> & [(-> & Hp)|(v & ->)]); [|now apply arrow_ends]. rewrite app_nil_r.
    split; [intros; contradiction|reflexivity].
Qed.

Lemma declaration_run s m : run false (matches a_declaration) (fun w p ns => decl_notes w p ns /\ (p = Misfit -> w <> [])) s (sp_production_rule_parse span call_site join_spans print s m).
Proof.
  unfold sp_production_rule_parse. eapply (run_bind false false _ (matches a_rest)); [apply ref_run| | | | |].
  - intros [name mt] s1. cbv beta iota. apply rest_of_declaration.
  - exists [SOp Arrow; SOp Bang; SOp Semicolon]. split; [|discriminate]. apply (m_seq _ _ [] _); [apply m_left; constructor|exact after_type_word].
  - intros w v Hw Hv. now constructor.
  - intros w p ns (-> & Hl & Hp). split; [now apply in_ref|contradiction].
  - intros w v p ns Hw Hn. split; [now apply ref_then|]. intros _ E. apply app_eq_nil in E. destruct E as [-> _]. apply ref_length in Hw. discriminate.
Qed.

(** ** Options *)
Definition opt_tail (v : rx) : rx := seq_of [op Colon; v; op Semicolon].
Definition leaves {A} (m : outcome diag (A * sp_stream)) : Prop := match m with Ok (_, s) => exists x it, ss_iter span s = inl x :: it | _ => True end.
Lemma remainder_run {A} s n v (N : nlang) (Q : Prop) (p : sp_stream -> outcome diag (A * sp_stream)) : inhabited v ->
  (forall s, run false (matches v) N s (p s)) -> (forall s, Q -> leaves (p s)) ->
  run false (matches (opt_tail v)) (fun w q ns => (w = [] /\ q <> Misfit /\ ns = []) \/ (exists w', w = SOp Colon :: w' /\ N w' q ns) \/
      (exists w', w = SOp Colon :: w' /\ matches v w' /\ (q <> Misfit /\ (q = NoSymbol -> ~ Q)) /\ ns = [])) s (sp_parse_option_remainder span call_site s n p).
Proof.
  intros Iv Hp Hl. unfold sp_parse_option_remainder. rewrite colon_text, semicolon_text. destruct (inhabited_ok v Iv) as (wv & Hwv).
  eapply (run_bind false false (matches (op Colon)) (matches (seq_of [v; op Semicolon])) _ (fun w q ns => w = [] /\ q <> Misfit /\ ns = [])
    (fun w q ns => N w q ns \/ (matches v w /\ (q <> Misfit /\ (q = NoSymbol -> ~ Q)) /\ ns = [])));
    [apply (with_run false _ _ (fun x => is_op x Colon) (eq (SOp Colon)) (ExpectedColon n)); [ops|eauto| |]; repeat split; discriminate| | | | |].
  - intros m s1. cbv beta iota.
    eapply (run_bind_at false false (matches v) (matches (seq_of [op Semicolon])) _ N (fun w q ns => w = [] /\ (q <> Misfit /\ (q = NoSymbol -> ~ Q)) /\ ns = [])); [apply Hp| | | | |].
    + intros a s2 Ha. specialize (Hl s1). rewrite Ha in Hl. cbn in Hl. cbv beta iota.
      eapply (run_bind false false (matches (op Semicolon)) (matches REmpty) _ (fun w q ns => w = [] /\ (q <> Misfit /\ (q = NoSymbol -> ~ Q)) /\ ns = []) (fun _ _ _ => False));
        [| | | | |]; auto.
      * unfold sp_expect_symbol_with, sp_expect_symbol, end_of_input. destruct (ss_iter span s2) as [|[x|d] it] eqn:E; cbn [bind].
        -- assert (Hq : ~ Q) by (intros HQ; destruct (Hl HQ) as (? & ? & ?); discriminate).
           apply (no_symbol false _ _ s2 _ []); auto; [now apply (on_sym _ (SOp Semicolon))|repeat split; auto; discriminate|intros d' it' E'; congruence].
        -- destruct (is_op (ty x) Semicolon) eqn:C.
           ++ apply (run_step false _ _ s2 x it (ss_current_span span s2) _ E). apply run_ret. constructor. apply is_op_ok in C. auto.
           ++ apply (wrong_symbol false _ _ s2 x it (ExpectedSemicolon n) E); [now apply (on_sym _ (SOp Semicolon))|repeat split; auto; discriminate].
        -- assert (Hq : ~ Q) by (intros HQ; destruct (Hl HQ) as (? & ? & ?); discriminate).
           apply (no_symbol false _ _ s2 _ []); eauto; [now apply (on_sym _ (SOp Semicolon))|repeat split; auto; discriminate|intros E'; congruence|].
           intros d' it' E'. rewrite E in E'. injection E' as <- _. auto.
      * intros m' s3. cbv beta iota. apply run_ret. constructor.
      * exists []. split; [constructor|auto].
      * intros w u Hw Hu. now constructor.
      * intros w u q ns _ [].
    + exists [SOp Semicolon]. split; [|discriminate]. apply (m_seq _ _ [_] []); now constructor.
    + intros w u Hw Hu. now constructor.
    + auto.
    + intros w u q ns Hw (-> & Hq & ->). right. rewrite app_nil_r. auto.
  - exists (wv ++ [SOp Semicolon]). split; [|intros H; apply app_eq_nil in H; destruct H; discriminate]. constructor; [exact Hwv|]. apply (m_seq _ _ [_] []); now constructor.
  - intros w u Hw Hu. now constructor.
  - auto.
  - intros w u q ns Hw H. apply sym_inv in Hw. destruct Hw as (x & -> & <-). destruct H as [H|(H1 & H2 & H3)]; [right; left; exists u; auto|right; right; exists u; auto].
Qed.

Lemma keyword_ok n u : is_identifier_with_name u n = true -> SIdent n = u.
Proof. intro H. apply is_name_ok in H. auto. Qed.

Lemma name_run s : run false (matches name_option) (fun _ p ns => p <> Misfit /\ ns = [name_note]) s (sp_parse_name span call_site s).
Proof.
  unfold sp_parse_name, sp_parse_option. rewrite keyword_text. eapply run_weaken; [apply (run_intercept false (matches name_option) (fun _ p ns => p <> Misfit /\ ns = []))| |].
  2: { intros w Hw. exact Hw. }
  2: { intros w p ns (ns' & -> & Hp & ->). now split. }
  eapply (run_bind false false (matches (keyword "name")) (matches (opt_tail an_ident)) _ (fun w p ns => p <> Misfit /\ ns = []));
    [apply (with_run false _ _ (fun x => is_identifier_with_name x "name") (eq (SIdent "name")) (ExpectedKeyword "name")); [apply keyword_ok|eauto| |]; split; (discriminate || reflexivity)| | | | |].
  - intros m s1. cbv beta iota. apply (remainder_run s1 "name" an_ident unmoved False); [exists (SIdent ""), ""; reflexivity|exact ident_run|contradiction].
  - exists [SOp Colon; SIdent ""; SOp Semicolon]. split; [|discriminate]. apply (m_seq _ _ [_] [_; _]); [now constructor|]. apply (m_seq _ _ [_] [_]); [constructor; exists ""; reflexivity|]. apply (m_seq _ _ [_] []); now constructor.
  - intros w v Hw Hv. now constructor.
  - auto.
  - intros w v p ns _ [(_ & H)|[(w' & _ & H)|(w' & _ & _ & (H1 & _) & H2)]]; [exact H|exact H|exact (conj H1 H2)].
Qed.

Lemma type_value_run {A} (f : list ttree -> A) s : run false (matches a_type) type_notes s
  ('(ty, s) <- sp_type_parse span call_site join_spans s ;; Ok (f (mt_tokens span ty), s)).
Proof.
  eapply (run_bind false false (matches a_type) (matches REmpty) _ _ (fun _ _ _ => False)); [apply type_run| | | | |].
  - intros m s'. cbv beta iota. apply run_ret. constructor.
  - exists []. split; [constructor|auto].
  - intros w v Hw Hv. inversion Hv. now rewrite app_nil_r.
  - auto.
  - intros w v p ns _ [].
Qed.

Lemma type_leaves {A} (f : list ttree -> A) s : leaves ('(ty, s) <- sp_type_parse span call_site join_spans s ;; Ok (f (mt_tokens span ty), s)).
Proof.
  unfold sp_type_parse, sp_expect_symbol, end_of_input. destruct (ss_iter span s) as [|[y|d] it']; cbn [bind leaves]; auto.
  match goal with |- context [sp_type_rest _ _ _ ?d ?e ?f] => pose proof (type_rest_stops d e f) as R; destruct (sp_type_rest span call_site join_spans d e f) as [[r1 r2]| | |] end; cbn [bind]; auto.
Qed.

(** An option with a type, after its keyword. *)
Lemma option_run {A} key note (f : list ttree -> A) s : run false (matches (opt_tail a_type)) (fun w p ns => option_notes key note (SIdent key :: w) p ns) s
  (intercept span note (sp_parse_option_remainder span call_site s key
     (fun s => '(ty, s) <- sp_type_parse span call_site join_spans s ;; Ok (f (mt_tokens span ty), s)))).
Proof.
  eapply run_weaken; [apply run_intercept, (remainder_run s key a_type type_notes True); [cbn; split; [exists (SOp Bang); exact I|exact I]|intros s1; apply type_value_run|intros s1 _; apply type_leaves]|auto|].
  assert (B : forall w us, us <> [] -> matches (opt_tail a_type) (w ++ us) -> begun (an_option key a_type) (SIdent key :: w)).
  { intros w us Hu Hm. exists us. split; [exact Hu|]. apply (m_seq _ _ [_]); [now constructor|exact Hm]. }
  assert (S1 : matches (seq_of [a_type; op Semicolon]) [SOp Bang; SOp Semicolon]).
  { apply (m_seq _ _ [_] [_]); [apply (m_seq _ _ [_] []); now constructor|]. apply (m_seq _ _ [_] []); now constructor. }
  intros w p ns (ns' & -> & [(-> & Hp & ->)|[(w' & -> & (-> & [(-> & ->)|(x & xs & -> & F & ->)]))|(w' & -> & Hm & (Hp & Hq) & ->)]]).
  - assert (H : begun (an_option key a_type) [SIdent key]).
    { apply (B [] [SOp Colon; SOp Bang; SOp Semicolon]); [discriminate|]. apply (m_seq _ _ [_]); [now constructor|exact S1]. }
    destruct p; [apply on_other; auto; discriminate|apply on_wrong; [exact H|discriminate]|contradiction].
  - apply on_other; [|discriminate|cbn; lia]. apply (B [SOp Colon] [SOp Bang; SOp Semicolon]); [discriminate|]. apply (m_seq _ _ [_]); [now constructor|exact S1].
  - apply (on_type key note x xs F).
  - destruct p; [destruct (Hq eq_refl I)| |contradiction]. apply on_wrong; [|discriminate].
    apply (B (SOp Colon :: w') [SOp Semicolon]); [discriminate|]. apply (m_seq _ _ [_]); [now constructor|]. constructor; [exact Hm|]. apply (m_seq _ _ [_] []); now constructor.
Qed.

(** ** The whole input *)
Definition terminal_options : rx := RAlt (an_option "terminal" a_type) (an_option "enum_terminal" a_type).
Definition option_word (key : string) : list symbol_t := [SIdent key; SOp Colon; SOp Bang; SOp Semicolon].
Lemma option_word_ok key : matches (an_option key a_type) (option_word key).
Proof.
  apply (m_seq _ _ [_]); [now constructor|]. apply (m_seq _ _ [_]); [now constructor|].
  apply (m_seq _ _ [_] [_]); [apply (m_seq _ _ [_] []); now constructor|]. apply (m_seq _ _ [_] []); now constructor.
Qed.

Definition terminal_notes : nlang := fun w p ns =>
  (w = [] /\ ((p = NoSymbol /\ ns = [keyword_note]) \/ (p = WrongSymbol /\ ns = []))) \/
  option_notes "terminal" terminal_note w p ns \/ option_notes "enum_terminal" enum_note w p ns.

Lemma intercept_expect {A} note (L : lang) (N : nlang) s (k : symbol_at * sp_stream -> outcome diag (A * sp_stream)) : goes_on L -> N [] NoSymbol [note] ->
  (forall x it, ss_iter span s = inl x :: it -> run false L N s (k (x, mk_stream span it (ss_current_span span s)))) ->
  run false L N s (bind (intercept span note (sp_expect_symbol span call_site s)) k).
Proof.
  intros Li Hn H. unfold sp_expect_symbol, end_of_input. destruct (ss_iter span s) as [|[x|d] it] eqn:E; unfold intercept; cbn [map_err bind].
  - apply (no_symbol false L N s _ [note]); auto. intros d' it' E'. congruence.
  - now apply H.
  - apply (no_symbol false L N s _ [note]); eauto; [intros E'; congruence|]. intros d' it' E'. rewrite E in E'. injection E' as <- _. auto.
Qed.

Lemma terminal_type_run s : run false (matches terminal_options) terminal_notes s (sp_parse_terminal_symbol_type span call_site join_spans s).
Proof.
  assert (On : goes_on (matches terminal_options)) by (exists (option_word "terminal"); split; [discriminate|apply m_left, option_word_ok]).
  unfold sp_parse_terminal_symbol_type. apply intercept_expect; [exact On|left; auto|]. intros x it E. cbv beta iota.
  destruct (is_identifier_with_name (ty x) "terminal") eqn:C1; [|destruct (is_identifier_with_name (ty x) "enum_terminal") eqn:C2].
  - apply keyword_ok in C1. eapply run_step; [exact E|]. eapply run_weaken; [apply (option_run "terminal" terminal_note)| |].
    + intros w Hw. rewrite <- C1. apply m_left. apply (m_seq _ _ [_] w); [now constructor|exact Hw].
    + intros w p ns Hn. rewrite <- C1. right. left. exact Hn.
  - apply keyword_ok in C2. eapply run_step; [exact E|]. eapply run_weaken; [apply (option_run "enum_terminal" enum_note)| |].
    + intros w Hw. rewrite <- C2. apply m_right. apply (m_seq _ _ [_] w); [now constructor|exact Hw].
    + intros w p ns Hn. rewrite <- C2. right. right. exact Hn.
  - apply (wrong_symbol false _ _ s x it ExpectedTerminalOption E On). left. auto.
Qed.

(** For a parser that leaves no stream. *)
Definition stops {A} (N : nlang) (s : sp_stream) (m : outcome diag A) : Prop :=
  match m with
  | Err d => exists w its p text ns, ss_iter span s = map inl w ++ its /\ N (types_at w) p ns /\ stated its p text (dg_span span d) /\ dg_message span d = with_notes text ns
  | _ => True
  end.

Lemma stops_bind {A B} (L1 : lang) (N1 N2 N : nlang) s (m : outcome diag (A * sp_stream)) (k : A * sp_stream -> outcome diag B) :
  run false L1 N1 s m -> (forall a s', m = Ok (a, s') -> stops N2 s' (k (a, s'))) ->
  (forall w us p ns, us <> [] -> L1 (w ++ us) -> N1 w p ns -> N w p ns) -> (forall w v p ns, L1 w -> N2 v p ns -> N (w ++ v) p ns) -> stops N s (bind m k).
Proof.
  intros H K HN1 HN2. destruct m as [[a s1]|d| |]; cbn [bind]; auto.
  - destruct H as (w & E & Lw). specialize (K a s1 eq_refl). destruct (k (a, s1)) as [b|d| |]; auto.
    destruct K as (w' & its & p & text & ns & E' & Hn & Hs & Hm). exists (w ++ w'), its, p, text, ns.
    split; [rewrite E, E', map_app, app_assoc; reflexivity|]. rewrite types_app. auto.
  - destruct H as (w & its & us & p & text & ns & E & Z & Lw & Hn & Hs & Hm). exists w, its, p, text, ns. split; [exact E|]. split; [|auto]. eapply HN1; eauto.
Qed.

Definition in_rules : nlang := fun w p ns => exists ys zs, w = ys ++ zs /\ matches (RStar a_declaration) ys /\ begun a_declaration zs /\ decl_notes zs p ns /\ (p = Misfit -> zs <> []).

Lemma rules_loop_stops fuel : forall m rules s, stops in_rules s (sp_rules_loop span call_site join_spans print fuel m rules s).
Proof.
  induction fuel as [|fuel IH]; intros m rules s; [exact I|]. cbn [sp_rules_loop].
  assert (Go : stops in_rules s
    (bind (sp_production_rule_parse span call_site join_spans print s m) (fun '(rs, lt, s) =>
       sp_rules_loop span call_site join_spans print fuel lt (rules ++ rs) s))).
  { eapply (stops_bind _ _ in_rules); [apply declaration_run| | |].
    - intros [rs lt] s' _. cbv beta iota. apply IH.
    - intros w us p ns Hu Hm Hn. exists [], w. split; [reflexivity|]. split; [constructor|]. split; [now exists us|exact Hn].
    - intros w v p ns Hw (ys & zs & -> & Hy & Hz & Hn). exists (w ++ ys), zs. split; [now rewrite app_assoc|]. split; [now constructor|]. auto. }
  destruct (ss_iter span s); [exact I|exact Go].
Qed.

Lemma stops_ok {A B} (N : nlang) s (m : outcome diag A) (k : A -> outcome diag B) : stops N s m -> (forall a, match k a with Err _ => False | _ => True end) -> stops N s (bind m k).
Proof. intros H K. destruct m as [a|d| |]; cbn [bind]; auto. specialize (K a). now destruct (k a). Qed.

(** After the first two options. *)
Definition rest_notes : nlang := fun w p ns =>
  (w = [] /\ ((p = NoSymbol /\ ns = [end_note]) \/ (p = WrongSymbol /\ ns = []))) \/ option_notes "error_type" error_note w p ns \/
  (exists ys zs, w = ys ++ zs /\ matches (RSeq (maybe (an_option "error_type" a_type)) (RStar a_declaration)) ys /\ begun a_declaration zs /\ w <> [] /\ decl_notes zs p ns).

Lemma rest_stops {A} s (k : option (list ttree) -> sp_label_type_map span * list (rule_at span) -> A) : stops rest_notes s
  ('(error_type, s) <- sp_maybe_parse_error_type span call_site join_spans s ;;
   x <- sp_rules_loop span call_site join_spans print (S (List.length (ss_iter span s))) [] [] s ;;
   Ok (k error_type x)).
Proof.
  unfold sp_maybe_parse_error_type.
  assert (Loop : forall et s, stops in_rules s
    (x <- sp_rules_loop span call_site join_spans print (S (List.length (ss_iter span s))) [] [] s ;; Ok (k et x))).
  { intros et s'. apply stops_ok; [apply rules_loop_stops|now intros]. }
  unfold sp_peek_expect_symbol. destruct (ss_iter span s) as [|[x|d] it] eqn:E.
  - unfold end_of_input, intercept. cbn [map_err bind]. exists [], [], NoSymbol, (error_text UnexpectedEnd), [end_note]. rewrite E. split; [reflexivity|]. split; [left; auto|]. split; [left; auto|reflexivity].
  - unfold intercept at 1. cbn [map_err bind]. destruct (is_identifier_with_name (ty x) "error_type") eqn:C; cbn [negb bind].
    + apply keyword_ok in C.
      eapply (stops_bind (matches (an_option "error_type" a_type)) (fun w p ns => option_notes "error_type" error_note w p ns) in_rules); [|intros a s' _; apply Loop| |].
      * eapply run_step; [exact E|]. eapply run_weaken; [apply (option_run "error_type" error_note)| |].
        -- intros w Hw. rewrite <- C. apply (m_seq _ _ [_] w); [now constructor|exact Hw].
        -- intros w p ns Hn. rewrite <- C. exact Hn.
      * intros w us p ns _ _ Hn. right. left. exact Hn.
      * intros w v p ns Hw (ys & zs & -> & Hy & Hz & Hn & _). right. right. exists (w ++ ys), zs. split; [now rewrite app_assoc|]. split; [constructor; [now apply m_right|exact Hy]|]. split; [exact Hz|]. split; [|exact Hn].
        intros H. apply app_eq_nil in H. destruct H as [-> _]. apply seq_inv in Hw. destruct Hw as (a & b & H & Ha & _). apply sym_inv in Ha. destruct Ha as (? & -> & _). discriminate.
    + specialize (Loop None s). rewrite E in *. destruct (x0 <- _ ;; _) as [a|d| |]; auto.
      destruct Loop as (w & its & p & text & ns & Ew & (ys & zs & Hw & Hy & Hz & Hn & Hp) & Hs & Hm). exists w, its, p, text, ns. split; [exact Ew|]. split; [|auto].
      destruct w as [|y w].
      * left. split; [reflexivity|]. right. cbn in Hw. symmetry in Hw. apply app_eq_nil in Hw. destruct Hw as [-> ->].
        rewrite E in Ew. cbn in Ew. subst its. cbn [stated] in Hs.
        assert (Hns : ns = []). { apply (proj2 Hn). intros [_ (ref & ? & ? & H & Hr & _)]. apply ref_length in Hr. destruct ref; discriminate. }
        split; [|exact Hns]. destruct p; [destruct Hs as [(Hs & _)|(? & ? & Hs & _)]; discriminate|reflexivity|]. now destruct (Hp eq_refl).
      * right. right. exists ys, zs. split; [exact Hw|]. split; [|split; [exact Hz|split; [discriminate|exact Hn]]]. apply (m_seq _ _ [] ys); [apply m_left; constructor|exact Hy].
  - unfold intercept. cbn [map_err bind]. exists [], (inr d :: it), NoSymbol, (dg_message span d), [end_note]. rewrite E. split; [reflexivity|]. split; [left; auto|]. split; [|reflexivity]. right. exists d, it. auto.
Qed.


Lemma declarations_notes its : stops notes_for (stream_new span its) (sp_parse_declarations span call_site join_spans print (stream_new span its)).
Proof.
  unfold sp_parse_declarations.
  eapply (stops_bind (matches name_option) _ (fun w p ns => terminal_notes w p ns \/ (exists a b, w = a ++ b /\ matches terminal_options a /\ rest_notes b p ns))); [apply name_run| | |].
  - intros name s1 _. cbv beta iota. eapply (stops_bind (matches terminal_options) _ rest_notes); [apply terminal_type_run| | |].
    + intros tt s2 _. cbv beta iota.
      pose proof (rest_stops s2 (fun et x => mk_declarations_at span name tt et (fst x) (snd x))) as H.
      replace (_ <- sp_maybe_parse_error_type _ _ _ _ ;; _) with
        ('(error_type, s) <- sp_maybe_parse_error_type span call_site join_spans s2 ;;
         x <- sp_rules_loop span call_site join_spans print (S (List.length (ss_iter span s))) [] [] s ;;
         Ok (mk_declarations_at span name tt error_type (fst x) (snd x))); [exact H|].
      destruct (sp_maybe_parse_error_type span call_site join_spans s2) as [[et s3]|d| |]; cbn [bind]; auto.
      destruct (sp_rules_loop _ _ _ _ _ _ _ _) as [[lt rs]|d| |]; reflexivity.
    + intros w us p ns _ _ Hn. now left.
    + intros w v p ns Hw Hn. right. exists w, v. auto.
  - intros w us p ns Hu Hm (Hp & ->). apply nf_name; [|exact Hp]. now exists us.
  - intros w v p ns Hw [[(-> & [(-> & ->)|(-> & ->)])|[H|H]]|(a & b & -> & Ha & Hb)].
    + rewrite app_nil_r. now constructor.
    + rewrite app_nil_r. now constructor.
    + now apply nf_terminal.
    + now apply nf_enum.
    + assert (H2 : matches two_options (w ++ a)) by now constructor. rewrite app_assoc.
      destruct Hb as [(-> & [(-> & ->)|(-> & ->)])|[H|(ys & zs & -> & Hy & Hz & Hne & H3 & H4)]].
      * rewrite app_nil_r. now constructor.
      * rewrite app_nil_r. now constructor.
      * now apply nf_error.
      * now apply nf_rules.
Qed.

Theorem notes_tell_the_part ts d : well_spaced (trees ts) ->
  sp_parse_declarations span call_site join_spans print (stream_new span (sp_tokenize_from_stream span join_spans ts)) = Err d ->
  exists w its p text ns, symbols_at join_spans ts (map inl w ++ its) /\ notes_for (types_at w) p ns /\
    stated its p text (dg_span span d) /\ dg_message span d = with_notes text ns.
Proof.
  intros W E. pose proof (declarations_notes (sp_tokenize_from_stream span join_spans ts)) as H. rewrite E in H.
  destruct H as (w & its & p & text & ns & Ei & Hn & Hs & Hm). exists w, its, p, text, ns. split; [|auto].
  cbn [stream_new ss_iter] in Ei. rewrite <- Ei. now apply (symbols_of_tokens call_site).
Qed.

End Spans.
