(** Where in the input the rules are that the front end returns. *)
From Coq Require Import Arith Bool String Ascii List Lia.
From Verif Require Import Base.Prelude Spec.Grammar Model.Error Model.TokenTree Model.Terminal Model.Symbol Model.Constructor Model.FrontEnd.
From Verif Require Import Model.Diagnostics Model.CodeGenDiagnostics Model.Expand Spec.Macro Spec.Diagnostics Spec.Places Proofs.Macro Proofs.Diagnostics.
Import ListNotations.
Open Scope string_scope.
Open Scope list_scope.

Section Places.
Context {span : Type} (call_site : span) (join_spans : span -> span -> option span) (print : list ttree -> string).
Notation symbol_at := (symbol_at span).
Notation sp_stream := (sp_stream span).
Notation diag := (diag span).
Notation cover := (cover join_spans).
Notation ty := (at_type span).
Notation node_written := (node_written join_spans print).
Notation nodes_written := (nodes_written join_spans print).
Notation alternative_written := (alternative_written join_spans print).
Notation alternatives_written := (alternatives_written join_spans print).
Notation declaration_written := (declaration_written join_spans print).
Notation declarations_written := (declarations_written join_spans print).

(** [takes s xs s']: the symbols [xs] are taken from [s]. *)
Definition takes (s : sp_stream) (xs : list symbol_at) (s' : sp_stream) : Prop :=
  ss_iter span s = map inl xs ++ ss_iter span s'.

Lemma takes_nil s : takes s [] s.
Proof. reflexivity. Qed.

Lemma takes_app s xs s1 ys s2 : takes s xs s1 -> takes s1 ys s2 -> takes s (xs ++ ys) s2.
Proof. unfold takes. intros -> ->. now rewrite map_app, <- app_assoc. Qed.

Lemma bind_ok {E A B} (m : outcome E A) (k : A -> outcome E B) b : bind m k = Ok b -> exists a, m = Ok a /\ k a = Ok b.
Proof. destruct m; try discriminate. eauto. Qed.

Lemma intercept_ok {A} msg (m : outcome diag A) a : intercept span msg m = Ok a -> m = Ok a.
Proof. destruct m; try discriminate. auto. Qed.

Lemma expect_takes s x s' : sp_expect_symbol span call_site s = Ok (x, s') -> takes s [x] s'.
Proof.
  unfold sp_expect_symbol, takes. destruct (ss_iter span s) as [|[y|e] r]; try discriminate. now intros [= -> <-].
Qed.

Lemma peek_takes s x s' : sp_peek_expect_symbol span call_site s = Ok (x, s') -> takes s [x] s'.
Proof.
  unfold sp_peek_expect_symbol, takes. destruct (ss_iter span s) as [|[y|e] r]; try discriminate. now intros [= -> <-].
Qed.

Lemma peek_again s x s' x2 s2 : sp_peek_expect_symbol span call_site s = Ok (x, s') -> sp_expect_symbol span call_site s = Ok (x2, s2) -> x2 = x.
Proof. intros H1%peek_takes H2%expect_takes. unfold takes in *. rewrite H1 in H2. now injection H2. Qed.

Lemma with_takes s f msg m s' : sp_expect_symbol_with span call_site s f msg = Ok (m, s') ->
  exists x, takes s [x] s' /\ f (ty x) = true /\ m = at_meta span x.
Proof.
  intros [[x s1] [H1%expect_takes H2]]%bind_ok. destruct (f (ty x)) eqn:F; try discriminate. injection H2 as <- <-. eauto.
Qed.

Lemma ref_takes s n m s' : sp_production_ref_parse span call_site join_spans s = Ok (n, m, s') ->
  exists x y z, takes s [x; y; z] s' /\ ref_syms n [x; y; z] /\ mt_span span m = cover (span_of x) (span_of z).
Proof.
  intros [[m1 s1] [(x & Tx & Fx & ->)%with_takes H]]%bind_ok.
  apply bind_ok in H as [[y s2] [Ty%expect_takes H]]. apply bind_ok in H as [n' [Hn H]].
  apply bind_ok in H as [[m3 s3] [(z & Tz & Fz & ->)%with_takes H]]. injection H as <- <- <-.
  exists x, y, z. split; [exact (takes_app _ _ _ _ _ Tx (takes_app _ _ _ _ _ Ty Tz))|].
  apply is_op_ok in Fx, Fz. split; [|reflexivity]. unfold ref_syms. simpl. rewrite Fx, Fz.
  destruct (ty y); try discriminate. now injection Hn as <-.
Qed.

Lemma terminal_takes s nd s' : sp_terminal_parse span call_site print s = Ok (nd, s') ->
  exists xs, takes s xs s' /\ node_written (fst nd) (mt_span span (snd nd)) xs.
Proof.
  intros [[x s1] [Tx%expect_takes H]]%bind_ok. destruct (ty x) as [[]|n|l|d ts|ts|ts] eqn:E; try discriminate.
  - injection H as <- <-. exists [x]. split; [exact Tx|]. now constructor.
  - unfold sp_parse_ident in H. apply bind_ok in H as [[y s2] [Ty%peek_takes H]].
    destruct (ty y) as [o|n2|l|d ts|ts|ts] eqn:E2; try (injection H as <- <-; exists [x]; split; [exact Tx|]; now constructor).
    pose proof (takes_app _ _ _ _ _ Tx Ty) as T. exists [x; y].
    assert (Et : types_at [x; y] = [SIdent n; SParen ts]) by (simpl; now rewrite E, E2).
    destruct (is_wildcard ts) eqn:W; injection H as <- <-; (split; [exact T|]).
    + eapply nw_wildcard; eauto. now apply wildcard_ok.
    + eapply nw_pattern; eauto. intro H. apply wildcard_ok in H. congruence.
  - injection H as <- <-. exists [x]. split; [exact Tx|]. now constructor.
Qed.

Lemma node_takes s nd s' : sp_production_node_parse span call_site join_spans print s = Ok (nd, s') ->
  exists xs, takes s xs s' /\ node_written (fst nd) (mt_span span (snd nd)) xs.
Proof.
  intros [[x s1] [_ H]]%bind_ok.
  destruct (ty x) as [[]|n|l|d ts|ts|ts]; try (now apply terminal_takes).
  apply bind_ok in H as [[[n m] s2] [(a & b & c & T & R & M)%ref_takes H]]. injection H as <- <-.
  exists [a; b; c]. split; [exact T|]. simpl fst. simpl snd. rewrite M. now constructor.
Qed.

Lemma nodes_app ns1 ss1 xs1 ns2 ss2 xs2 : nodes_written ns1 ss1 xs1 -> nodes_written ns2 ss2 xs2 ->
  nodes_written (ns1 ++ ns2) (ss1 ++ ss2) (xs1 ++ xs2).
Proof. intros H1 H2. induction H1 as [|n s xs ns ss ys Hn _ IH]; [exact H2|]. rewrite <- !app_assoc. simpl. now constructor. Qed.

Lemma rule_loop_takes : forall fuel m rule s m' rule' b s',
  sp_rule_loop span call_site join_spans print fuel m rule s = Ok (m', rule', b, s') ->
  exists ns ss xs ys, rule' = rule ++ ns /\ takes s (xs ++ ys) s' /\ nodes_written (map fst ns) ss xs /\ block_written b ys /\
    mt_span span m' = fold_left cover ss (mt_span span m).
Proof.
  induction fuel as [|fuel IH]; intros m rule s m' rule' b s' H; [discriminate|].
  cbn [sp_rule_loop] in H. apply bind_ok in H as [[x s1] [Tx%peek_takes H]].
  assert (Stop : Ok (m, rule, None, s) = Ok (E := diag) (m', rule', b, s') -> exists ns ss xs ys, rule' = rule ++ ns /\ takes s (xs ++ ys) s' /\
    nodes_written (map fst ns) ss xs /\ block_written b ys /\ mt_span span m' = fold_left cover ss (mt_span span m)).
  { intros [= <- <- <- <-]. exists [], [], [], []. rewrite app_nil_r. split; [reflexivity|]. split; [apply takes_nil|]. repeat constructor. }
  assert (Go : bind (sp_production_node_parse span call_site join_spans print s) (fun '(node, s) =>
        sp_rule_loop span call_site join_spans print fuel (merge span join_spans m (snd node)) (rule ++ [node]) s) = Ok (m', rule', b, s') ->
    exists ns ss xs ys, rule' = rule ++ ns /\ takes s (xs ++ ys) s' /\
    nodes_written (map fst ns) ss xs /\ block_written b ys /\ mt_span span m' = fold_left cover ss (mt_span span m)).
  { intro G. apply bind_ok in G as [[nd s2] [(xs & T & W)%node_takes G]].
    apply IH in G as (ns & ss & xs' & ys & -> & T' & W' & B & M).
    exists (nd :: ns), (mt_span span (snd nd) :: ss), (xs ++ xs'), ys. rewrite <- !app_assoc.
    split; [reflexivity|]. split; [exact (takes_app _ _ _ _ _ T T')|]. split; [now constructor|]. split; [exact B|exact M]. }
  destruct (ty x) as [[]|n|l|d ts|ts|ts] eqn:E; auto.
  injection H as <- <- <- <-. exists [], [], [], [x]. rewrite app_nil_r. split; [reflexivity|]. split; [exact Tx|].
  split; [constructor|]. split; [econstructor; exact E|reflexivity].
Qed.

Lemma parse_rule_takes s name rt r s' : sp_parse_rule span call_site join_spans print s name rt = Ok (r, s') ->
  exists xs, takes s xs s' /\ alternative_written name (option_map (mt_tokens span) rt) (srule_of span r) xs.
Proof.
  intros [[nd s1] [(xs & T & W)%node_takes H]]%bind_ok.
  apply bind_ok in H as [[[[m rule] b] s2] [(ns & ss & xs' & ys & -> & T' & W' & B & M)%rule_loop_takes H]].
  assert (G : Ok (mk_rule_at span name (option_map (mt_tokens span) rt) ([nd] ++ ns) b m, s2) = Ok (E := diag) (r, s')).
  { destruct (find _ _); [|exact H]. destruct (1 <? _)%nat; [discriminate|exact H]. }
  injection G as <- <-. exists ((xs ++ xs') ++ ys). rewrite <- app_assoc. split; [exact (takes_app _ _ _ _ _ T T')|].
  rewrite app_assoc. unfold srule_of. cbn [ra_name ra_type ra_at ra_block ra_meta]. rewrite M. constructor; [|exact B].
  now constructor.
Qed.

Lemma alternatives_app label t rs xs x r ys : alternatives_written label t rs xs -> ty x = SOp Pipe -> alternative_written label t r ys ->
  alternatives_written label t (rs ++ [r]) (xs ++ x :: ys).
Proof.
  intros H Tx R. induction H as [r0 xs R0|r0 xs0 x0 rs ys0 R0 T0 _ IH]; simpl.
  - apply asw_more; auto. now constructor.
  - rewrite <- app_assoc. simpl. now apply asw_more.
Qed.

Lemma alternatives_takes name rt : forall fuel rules s rules' s',
  sp_alternatives span call_site join_spans print fuel name rt rules s = Ok (rules', s') ->
  forall pre, alternatives_written name (option_map (mt_tokens span) rt) (map (srule_of span) rules) pre ->
  exists xs z, takes s (xs ++ [z]) s' /\ ty z = SOp Semicolon /\
    alternatives_written name (option_map (mt_tokens span) rt) (map (srule_of span) rules') (pre ++ xs).
Proof.
  induction fuel as [|fuel IH]; intros rules s rules' s' H pre W; [discriminate|].
  cbn [sp_alternatives] in H. apply bind_ok in H as [[x s1] [Tx%expect_takes H]].
  destruct (ty x) as [[]|n|l|d ts|ts|ts] eqn:E; try discriminate.
  - injection H as <- <-. exists [], x. rewrite app_nil_r. auto.
  - apply bind_ok in H as [[r s2] [(xs & T & A)%parse_rule_takes H]].
    edestruct (IH _ _ _ _ H (pre ++ x :: xs)) as (xs' & z & T' & Tz & W').
    + rewrite map_app. now apply alternatives_app.
    + exists (x :: xs ++ xs'), z. split; [|split; [exact Tz|]].
      * change ((x :: xs ++ xs') ++ [z]) with ([x] ++ (xs ++ xs') ++ [z]). rewrite <- app_assoc.
        exact (takes_app _ _ _ _ _ Tx (takes_app _ _ _ _ _ T T')).
      * rewrite <- app_assoc in W'. exact W'.
Qed.

Lemma type_rest_takes : forall fuel m s m' s', sp_type_rest span call_site join_spans fuel m s = Ok (m', s') ->
  exists xs, takes s xs s' /\ Forall in_type (types_at xs) /\ mt_span span m' = fold_left cover (map span_of xs) (mt_span span m) /\
    mt_tokens span m' = mt_tokens span m ++ flat_map tokens_of xs.
Proof.
  induction fuel as [|fuel IH]; intros m s m' s' H; [discriminate|].
  cbn [sp_type_rest] in H. apply bind_ok in H as [[x s1] [Tx%intercept_ok%peek_takes H]].
  destruct (is_op (ty x) Arrow || is_op (ty x) Semicolon) eqn:E.
  - injection H as <- <-. exists []. rewrite app_nil_r. repeat split; auto. constructor.
  - apply IH in H as (xs & T & F & M & N). exists (x :: xs). split; [exact (takes_app _ _ _ _ _ Tx T)|].
    apply orb_false_iff in E as [E1 E2]. split; [|split].
    + constructor; [|exact F]. split; intro Q; [rewrite <- is_op_ok in Q|rewrite <- is_op_ok in Q]; congruence.
    + exact M.
    + rewrite N. simpl. now rewrite <- app_assoc.
Qed.

Lemma type_takes s m s' : sp_type_parse span call_site join_spans s = Ok (m, s') ->
  exists x xs, takes s (x :: xs) s' /\ Forall in_type (types_at xs) /\ mt_span span m = cover_all join_spans x xs /\
    mt_tokens span m = flat_map tokens_of (x :: xs).
Proof.
  intros [[x s1] [Tx%expect_takes H]]%bind_ok. apply type_rest_takes in H as (xs & T & F & M & N).
  exists x, xs. split; [exact (takes_app _ _ _ _ _ Tx T)|]. auto.
Qed.

Lemma return_type_takes s rt s' : sp_maybe_parse_return_type span call_site join_spans s = Ok (rt, s') ->
  exists xs t, takes s xs s' /\ type_at join_spans t xs /\ option_map snd t = option_map (mt_tokens span) rt.
Proof.
  intros [[x s1] [Tx%peek_takes H]]%bind_ok.
  assert (N : Ok (None, s) = Ok (E := diag) (rt, s') -> exists xs t, takes s xs s' /\ type_at join_spans t xs /\ option_map snd t = option_map (mt_tokens span) rt).
  { intros [= <- <-]. exists [], None. repeat split; constructor. }
  destruct (ty x) as [[]|n|l|d ts|ts|ts] eqn:E; auto. clear N.
  apply bind_ok in H as [[m s2] [(y & ys & T & F & _ & N)%type_takes H]]. injection H as <- <-.
  exists (x :: y :: ys), (Some (cover_all join_spans y ys, flat_map tokens_of (y :: ys))).
  split; [exact (takes_app _ _ _ _ _ Tx T)|]. split; [now constructor|]. simpl. now rewrite N.
Qed.

Lemma declaration_takes s lm rs lm' s' : sp_production_rule_parse span call_site join_spans print s lm = Ok (rs, lm', s') ->
  exists xs, takes s xs s' /\ declaration_written (map (srule_of span) rs) xs.
Proof.
  intros [[[n m] s1] [(x & y & z & T1 & R & _)%ref_takes H]]%bind_ok.
  apply bind_ok in H as [[rt s2] [(xt & t & T2 & Ta & Et)%return_type_takes H]].
  apply bind_ok in H as [lm1 [_ H]].
  apply bind_ok in H as [[m3 s3] [(xa & T3 & Fa & _)%with_takes H]].
  apply bind_ok in H as [[r s4] [(xr & T4 & A)%parse_rule_takes H]].
  apply bind_ok in H as [[rs' s5] [H5 H]]. injection H as <- <- <-.
  edestruct (alternatives_takes _ _ _ _ _ _ _ H5 xr) as (xs & w & T5 & Tw & As); [now constructor|].
  exists ([x; y; z] ++ xt ++ xa :: (xr ++ xs) ++ [w]). split.
  - pose proof (takes_app _ _ _ _ _ T1 (takes_app _ _ _ _ _ T2 (takes_app _ _ _ _ _ T3 (takes_app _ _ _ _ _ T4 T5)))) as T.
    rewrite <- (app_assoc xr xs). exact T.
  - rewrite <- Et in As. econstructor; eauto. now apply is_op_ok.
Qed.

Lemma declarations_app rs xs rs' ys : declarations_written rs xs -> declaration_written rs' ys -> declarations_written (rs ++ rs') (xs ++ ys).
Proof.
  intros H D. induction H as [|rs0 xs0 rs1 ys1 D0 _ IH].
  - rewrite <- (app_nil_r ([] ++ rs')), <- (app_nil_r ([] ++ ys)). apply (dsw_cons _ _ rs' ys [] []); [exact D|constructor].
  - rewrite <- !app_assoc. now constructor.
Qed.

Lemma rules_takes : forall fuel lm rules s lm' rules', sp_rules_loop span call_site join_spans print fuel lm rules s = Ok (lm', rules') ->
  forall pre, declarations_written (map (srule_of span) rules) pre ->
  exists xs, ss_iter span s = map inl xs /\ declarations_written (map (srule_of span) rules') (pre ++ xs).
Proof.
  induction fuel as [|fuel IH]; intros lm rules s lm' rules' H pre W; [discriminate|].
  cbn [sp_rules_loop] in H. destruct (ss_iter span s) as [|i r] eqn:E.
  { injection H as <- <-. exists []. now rewrite app_nil_r. }
  apply bind_ok in H as [[[rs lm1] s1] [(xs & T & D)%declaration_takes H]].
  edestruct (IH _ _ _ _ _ H (pre ++ xs)) as (xs' & E' & W').
  - rewrite map_app. now apply declarations_app.
  - exists (xs ++ xs'). unfold takes in T. rewrite <- E, T, E', map_app. now rewrite app_assoc.
Qed.

Lemma remainder_takes {A} s n (p : sp_stream -> outcome diag (A * sp_stream)) v s' (r : rx) :
  (forall s a s', p s = Ok (a, s') -> exists xs, takes s xs s' /\ matches r (types_at xs)) ->
  sp_parse_option_remainder span call_site s n p = Ok (v, s') ->
  exists xs, takes s xs s' /\ matches (RSeq (op Colon) (RSeq r (RSeq (op Semicolon) REmpty))) (types_at xs).
Proof.
  intros Hp [[m1 s1] [(x & Tx & Fx & _)%with_takes H]]%bind_ok.
  apply bind_ok in H as [[a s2] [(xs & T & M)%Hp H]].
  apply bind_ok in H as [[m3 s3] [(z & Tz & Fz & _)%with_takes H]]. injection H as _ <-.
  exists ([x] ++ xs ++ [z]). split; [exact (takes_app _ _ _ _ _ Tx (takes_app _ _ _ _ _ T Tz))|].
  apply is_op_ok in Fx, Fz. unfold types_at. rewrite !map_app. simpl. rewrite Fx, Fz.
  apply (m_seq _ _ [_] (_ ++ [_])); [now constructor|]. constructor; [exact M|]. apply (m_seq _ _ [_] []); [now constructor|constructor].
Qed.

Lemma type_parser_takes {A} (f : meta span -> A) s a s' :
  bind (sp_type_parse span call_site join_spans s) (fun '(ty, s) => Ok (f ty, s)) = Ok (a, s') ->
  exists xs, takes s xs s' /\ matches a_type (types_at xs).
Proof.
  intros [[m s1] [(x & xs & T & F & _)%type_takes H]]%bind_ok. injection H as _ <-. exists (x :: xs). split; [exact T|].
  simpl. unfold a_type. apply (m_seq _ _ [_] _); [now constructor|]. clear T.
  induction xs as [|y ys IH]; [constructor|]. inversion F; subst. simpl. apply (m_star_cons _ [_] _); [now constructor|auto].
Qed.

Theorem places ts d : sp_parse_declarations span call_site join_spans print (stream_new span ts) = Ok d ->
  exists xs, ts = map inl xs /\ rules_written join_spans print (map (srule_of span) (da_rules span d)) xs.
Proof.
  intro H. unfold sp_parse_declarations in H.
  apply bind_ok in H as [[n s1] [H1%intercept_ok H]].
  apply bind_ok in H1 as [[m0 s0] [(x & Tx & Fx & _)%with_takes H1]].
  apply remainder_takes with (r := an_ident) in H1 as (xs1 & T1 & M1).
  2:{ intros s a s' [[y s2] [Ty%expect_takes Q]]%bind_ok. exists [y]. destruct (ty y) eqn:E; try discriminate. injection Q as _ <-.
      split; [exact Ty|]. simpl. rewrite E. constructor. eauto. }
  apply bind_ok in H as [[tt s2] [H2 H]]. apply bind_ok in H2 as [[y s3] [Ty%intercept_ok%expect_takes H2]].
  assert (Tt : exists xs, takes s1 xs s2 /\ matches (RAlt (an_option "terminal" a_type) (an_option "enum_terminal" a_type)) (types_at xs)).
  { destruct (is_identifier_with_name (ty y) "terminal") eqn:E1.
    - apply intercept_ok in H2. apply remainder_takes with (r := a_type) in H2 as (xs & T & M); [|intros ? ? ? Q; exact (type_parser_takes (fun m => TTRaw (mt_tokens span m)) _ _ _ Q)].
      exists (y :: xs). split; [exact (takes_app _ _ _ _ _ Ty T)|]. apply m_left. apply (m_seq _ _ [_] _); [|exact M].
      constructor. apply is_name_ok in E1. now rewrite E1.
    - destruct (is_identifier_with_name (ty y) "enum_terminal") eqn:E2; [|discriminate].
      apply intercept_ok in H2. apply remainder_takes with (r := a_type) in H2 as (xs & T & M); [|intros ? ? ? Q; exact (type_parser_takes (fun m => TTEnum (mt_tokens span m)) _ _ _ Q)].
      exists (y :: xs). split; [exact (takes_app _ _ _ _ _ Ty T)|]. apply m_right. apply (m_seq _ _ [_] _); [|exact M].
      constructor. apply is_name_ok in E2. now rewrite E2. }
  clear H2 Ty. destruct Tt as (xs2 & T2 & M2).
  apply bind_ok in H as [[et s4] [H3 H]]. apply bind_ok in H3 as [[z s5] [Tz%intercept_ok%peek_takes H3]].
  assert (Te : exists xs, takes s2 xs s4 /\ matches (maybe (an_option "error_type" a_type)) (types_at xs)).
  { destruct (is_identifier_with_name (ty z) "error_type") eqn:E1; cbn [negb] in H3.
    - apply intercept_ok in H3. apply remainder_takes with (r := a_type) in H3 as (xs & T & M); [|intros ? ? ? Q; exact (type_parser_takes (fun m => Some (mt_tokens span m)) _ _ _ Q)].
      exists (z :: xs). split; [exact (takes_app _ _ _ _ _ Tz T)|]. apply m_right. apply (m_seq _ _ [_] _); [|exact M].
      constructor. apply is_name_ok in E1. now rewrite E1.
    - injection H3 as _ <-. exists []. split; [apply takes_nil|]. apply m_left. constructor. }
  clear H3 Tz. destruct Te as (xs3 & T3 & M3).
  apply bind_ok in H as [[lm rules] [H4 H]]. injection H as <-. cbn [da_rules].
  edestruct (rules_takes _ _ _ _ _ _ H4 []) as (xs4 & E4 & W); [constructor|].
  pose proof (takes_app _ _ _ _ _ (takes_app _ _ _ _ _ Tx T1) (takes_app _ _ _ _ _ T2 T3)) as T. unfold takes in T. cbn [ss_iter stream_new] in T.
  exists ((([x] ++ xs1) ++ xs2 ++ xs3) ++ xs4). split; [rewrite (map_app inl _ xs4), <- E4; exact T|].
  exists (([x] ++ xs1) ++ xs2 ++ xs3), xs4. split; [reflexivity|]. split; [|exact W].
  unfold types_at. rewrite !map_app. constructor.
  - apply (m_seq _ _ [_] _); [|exact M1]. constructor. apply is_name_ok in Fx. now rewrite Fx.
  - constructor; [exact M2|]. rewrite <- (app_nil_r (map ty xs3)). constructor; [exact M3|constructor].
Qed.

End Places.
