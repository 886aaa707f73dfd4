(** Where the end of a too short input is reported. *)
From Coq Require Import Arith Bool String Ascii List Lia.
From Verif Require Import Base.Prelude Spec.Grammar Model.Error Model.TokenTree Model.Terminal Model.Constructor Model.Symbol Model.FrontEnd Model.ErrorText Model.Diagnostics.
From Verif Require Import Spec.Macro Spec.Diagnostics Spec.Lookahead Proofs.Macro Proofs.Diagnostics.
Import ListNotations.
Open Scope string_scope.
Open Scope list_scope.

Definition mlang := list (symbol_t * bool) -> Prop.

(** Words of an expression followed by others. *)
Definition mcat (r : lrx) (K : mlang) : mlang := fun w => exists a b, w = a ++ b /\ marked r a /\ K b.
Definition mlive (K : mlang) : Prop := exists w, K w.

Fixpoint minhabited (r : lrx) : Prop :=
  match r with
  | LRead p | LLook p => exists x, p x
  | LEmpty | LStar _ => True
  | LSeq r1 r2 => minhabited r1 /\ minhabited r2
  | LAlt r1 r2 => minhabited r1 \/ minhabited r2
  end.
Lemma minhabited_ok r : minhabited r -> mlive (marked r).
Proof.
  induction r as [p|p| |r1 IH1 r2 IH2|r1 IH1 r2 IH2|r IH]; simpl; intro H.
  - destruct H as [x H]. eexists. constructor. exact H.
  - destruct H as [x H]. eexists. constructor. exact H.
  - eexists. constructor.
  - destruct H as [H1 H2]. destruct (IH1 H1) as [a A], (IH2 H2) as [b B]. eexists. constructor; eauto.
  - destruct H as [H|H]; [destruct (IH1 H) as [a A]|destruct (IH2 H) as [a A]]; eexists; [apply k_left|apply k_right]; eauto.
  - eexists. constructor.
Qed.

Section Spans.
Context {span : Type} (call_site : span) (join_spans : span -> span -> option span).
Variable print : list ttree -> string.

Notation symbol_at := (symbol_at span).
Notation items := (items span).
Notation diag := (diag span).
Notation sp_stream := (sp_stream span).
Notation ty := (at_type span).
Notation word := (@word span).

(** The current span after [w] has been read. *)
Definition after (c : option span) (w : word) : option span :=
  fold_left (fun (c : option span) (z : symbol_at * bool) => if snd z then Some (span_of (fst z)) else c) w c.

Lemma after_app c w v : after c (w ++ v) = after (after c w) v.
Proof. apply fold_left_app. Qed.

Lemma after_last w : forall c, match after c w with Some sp => sp | None => call_site end =
  last (map (fun z => span_of (fst z)) (filter snd w)) (match c with Some sp => sp | None => call_site end).
Proof.
  induction w as [|[x b] w IH]; intro c; [reflexivity|]. cbn [after fold_left fst snd filter]. fold (after (if b then Some (span_of x) else c) w).
  rewrite IH. destruct b; [|reflexivity]. cbn [map fst]. set (l := map _ _). clearbody l. revert c. clear.
  generalize (span_of x). induction l as [|a l IHl]; intros sp c; [reflexivity|]. cbn [last] in *. destruct l; [reflexivity|]. 
  change (last (s :: l) sp = last (s :: l) match c with Some sp => sp | None => call_site end).
  clear. revert s. induction l as [|a l IH]; intro s; [reflexivity|]. cbn [last] in *. destruct l; [reflexivity|]. apply (IH a).
Qed.

(** An error of another kind. *)
Definition other (d : diag) : Prop :=
  exists e, e <> UnexpectedEnd /\ (forall g, e <> GrammarError g) /\ noted (error_text e) (dg_message span d).
Definition clean (its : items) : Prop := forall d, In (inr d) its -> other d.

Definition ended (L : mlang) (s : sp_stream) (d : diag) : Prop :=
  exists w us, ss_iter span s = map inl (map fst w) /\ L (marks w ++ us) /\
  dg_span span d = match after (ss_current_span span s) w with Some sp => sp | None => call_site end.

(** What a parser does with the stream [s]. *)
Definition run {A} (L : mlang) (s : sp_stream) (m : outcome diag (A * sp_stream)) : Prop :=
  clean (ss_iter span s) ->
  match m with
  | Ok (_, s') => exists w, ss_iter span s = map inl (map fst w) ++ ss_iter span s' /\ L (marks w) /\
      ss_current_span span s' = after (ss_current_span span s) w
  | Err d => ended L s d \/ other d
  | _ => True
  end.

Lemma run_ret {A} (L : mlang) s (a : A) : L [] -> run L s (Ok (a, s)).
Proof. intros H C. exists []. auto. Qed.

Lemma run_err {A} (L : mlang) s d : other d -> run L s (Err d : outcome diag (A * sp_stream)).
Proof. intros H C. now right. Qed.

Lemma run_weaken {A} (L L' : mlang) s (m : outcome diag (A * sp_stream)) : run L s m -> (forall w, L w -> L' w) -> run L' s m.
Proof.
  intros H I C. specialize (H C). destruct m as [[a s']|d| |]; auto.
  - destruct H as (w & E & Lw & Cu). exists w. auto.
  - destruct H as [(w & us & E & Lw & Cu)|H]; [|now right]. left. exists w, us. auto.
Qed.

Lemma clean_tail (w : list symbol_at) its : clean (map inl w ++ its) -> clean its.
Proof. intros C d H. apply C, in_or_app. now right. Qed.

Lemma marks_app w v : marks (w ++ v) = marks (span := span) w ++ marks v.
Proof. apply map_app. Qed.

Lemma run_bind {A B} (L1 L2 L : mlang) s (m : outcome diag (A * sp_stream)) (k : A * sp_stream -> outcome diag (B * sp_stream)) :
  run L1 s m -> (forall a s', run L2 s' (k (a, s'))) -> (forall w v, L1 w -> L2 v -> L (w ++ v)) -> mlive L2 -> run L s (bind m k).
Proof.
  intros H K I [v Lv] C. specialize (H C). destruct m as [[a s1]|d| |]; cbn [bind]; auto.
  - destruct H as (w & E & Lw & Cu). rewrite E in C. apply clean_tail in C. specialize (K a s1 C).
    destruct (k (a, s1)) as [[b s2]|d| |]; auto.
    + destruct K as (w' & E' & Lw' & Cu'). exists (w ++ w'). split; [|split].
      * rewrite E, E'. now rewrite map_app, map_app, app_assoc.
      * rewrite marks_app. auto.
      * rewrite after_app, <- Cu. exact Cu'.
    + destruct K as [(w' & us & E' & Lw' & Cu')|K]; [|now right]. left. exists (w ++ w'), us. split; [|split].
      * rewrite E, E'. now rewrite map_app, map_app.
      * rewrite marks_app, <- app_assoc. auto.
      * rewrite after_app, <- Cu. exact Cu'.
  - destruct H as [(w & us & E & Lw & Cu)|H]; [|now right]. left. exists w, (us ++ v). split; [exact E|split; [|exact Cu]].
    rewrite app_assoc. auto.
Qed.

(** After [x]. *)
Definition step (L : mlang) (x : symbol_at) (b : bool) : mlang := fun w => L ((ty x, b) :: w).

Lemma run_step {A} (L : mlang) s x it b (m : outcome diag (A * sp_stream)) : ss_iter span s = inl x :: it ->
  run (step L x b) (mk_stream span it (after (ss_current_span span s) [(x, b)])) m -> run L s m.
Proof.
  intros E H C. rewrite E in C. specialize (H (clean_tail [x] it C)). destruct m as [[a s']|d| |]; auto.
  - destruct H as (w & E' & Lw & Cu). exists ((x, b) :: w). split; [|split; auto]. rewrite E. cbn [ss_iter map fst app] in *. now rewrite E'.
  - destruct H as [(w & us & E' & Lw & Cu)|H]; [|now right]. left. exists ((x, b) :: w), us. split; [|split; auto].
    rewrite E. cbn [ss_iter map fst] in *. now rewrite E'.
Qed.

Lemma at_end {A} (L : mlang) s : ss_iter span s = [] -> mlive L -> run L s (end_of_input span call_site s : outcome diag (A * sp_stream)).
Proof. intros E [us H] C. left. exists [], us. auto. Qed.

Lemma end_bind {A B} s (k : A -> outcome diag B) : bind (end_of_input span call_site s) k = end_of_input span call_site s.
Proof. reflexivity. Qed.

Lemma bad_item {A} (L : mlang) s d it : ss_iter span s = inr d :: it -> run L s (Err d : outcome diag (A * sp_stream)).
Proof. intros E C. right. apply C. rewrite E. now left. Qed.

Lemma expect_bind {A} (L : mlang) s (k : symbol_at * sp_stream -> outcome diag (A * sp_stream)) : mlive L ->
  (forall x it, ss_iter span s = inl x :: it -> run (step L x false) (mk_stream span it (ss_current_span span s))
     (k (x, mk_stream span it (ss_current_span span s)))) ->
  run L s (bind (sp_expect_symbol span call_site s) k).
Proof.
  intros Li H. unfold sp_expect_symbol. destruct (ss_iter span s) as [|[x|d] it] eqn:E; cbn [bind].
  - now apply at_end.
  - apply (run_step L s x it false _ E). now apply H.
  - eapply bad_item; eauto.
Qed.

(** Nothing is read yet; [L] tells what happens when it is. *)
Lemma peek_bind {A} (L : mlang) s (k : symbol_at * sp_stream -> outcome diag (A * sp_stream)) : mlive L ->
  (forall x it, ss_iter span s = inl x :: it -> run L s (k (x, mk_stream span it (Some (span_of x))))) ->
  run L s (bind (sp_peek_expect_symbol span call_site s) k).
Proof.
  intros Li H. unfold sp_peek_expect_symbol. destruct (ss_iter span s) as [|[x|d] it] eqn:E; cbn [bind].
  - now apply at_end.
  - now apply H.
  - eapply bad_item; eauto.
Qed.

Lemma take {A} (L : mlang) s x it (m : outcome diag (A * sp_stream)) : ss_iter span s = inl x :: it ->
  run (step L x true) (mk_stream span it (Some (span_of x))) m -> run L s m.
Proof. intros E H. exact (run_step L s x it true m E H). Qed.

Lemma run_intercept {A} (L : mlang) s note (m : outcome diag (A * sp_stream)) : run L s m -> run L s (intercept span note m).
Proof.
  intros H C. specialize (H C). destruct m as [[a s']|d| |]; unfold intercept; cbn [map_err]; auto.
  destruct H as [(w & us & E & Lw & Cu)|(e & N & G & T)]; [left; exists w, us; auto|]. right. exists e. split; [exact N|split; [exact G|]]. cbn [dg_message]. now constructor.
Qed.

Lemma intercept_bind {A} note (m : outcome diag (symbol_at * sp_stream)) (k : symbol_at * sp_stream -> outcome diag (A * sp_stream)) L s :
  run L s (bind m k) -> (forall d, m = Err d -> run L s (Err d : outcome diag (A * sp_stream))) -> run L s (bind (intercept span note m) k).
Proof.
  intros H N. destruct m as [[a s']|d| |]; unfold intercept; cbn [map_err bind] in *; auto. intro C. specialize (N d eq_refl C).
  destruct N as [(w & us & E & Lw & Cu)|(e & Ne & G & T)]; [left; exists w, us; auto|]. right. exists e. split; [exact Ne|split; [exact G|]]. cbn [dg_message]. now constructor.
Qed.

Lemma other_make e m : e <> UnexpectedEnd -> (forall g, e <> GrammarError g) -> other (mk_diag span (error_text e) m).
Proof. intros N G. exists e. auto using n_none. Qed.

Lemma with_run s cmp (p : symbol_t -> Prop) e : e <> UnexpectedEnd -> (forall g, e <> GrammarError g) ->
  (forall u, cmp u = true -> p u) -> (exists u, p u) ->
  run (marked (LRead p)) s (sp_expect_symbol_with span call_site s cmp (error_text e)).
Proof.
  intros N G H Ip. unfold sp_expect_symbol_with. apply expect_bind; [now apply minhabited_ok|].
  intros x it E. cbv beta iota. destruct (cmp (ty x)) eqn:C.
  - apply run_ret. unfold step. constructor. auto.
  - apply run_err. now apply other_make.
Qed.

(** ** Types *)

Lemma type_rest_run fuel : forall m s, run (marked (LStar (LLook in_type))) s (sp_type_rest span call_site join_spans fuel m s).
Proof.
  induction fuel as [|fuel IH]; intros m s; [intros _; exact I|]. cbn [sp_type_rest].
  apply intercept_bind.
  - apply peek_bind; [apply minhabited_ok; exact I|]. intros x it E. cbv beta iota.
    destruct (is_op (ty x) Arrow || is_op (ty x) Semicolon) eqn:C; [apply run_ret; constructor|].
    eapply take; [exact E|]. eapply run_weaken; [apply IH|]. intros w Hw. unfold step. apply (k_star_cons _ [_] w); [|exact Hw].
    constructor. apply orb_false_elim in C as [C1 C2]. apply is_op_no in C1, C2. now split.
  - unfold sp_peek_expect_symbol. intros d H. destruct (ss_iter span s) as [|[x|d'] it] eqn:E; try discriminate.
    + injection H as <-. apply (at_end _ _ E). apply minhabited_ok; exact I.
    + injection H as <-. eapply bad_item; eauto.
Qed.

Lemma type_run s : run (marked l_type) s (sp_type_parse span call_site join_spans s).
Proof.
  unfold sp_type_parse. apply expect_bind; [apply minhabited_ok; simpl; split; [exists (SOp Bang); exact I|exact I]|].
  intros x it E. cbv beta iota. eapply run_weaken; [apply type_rest_run|]. intros w Hw. unfold step.
  apply (k_seq _ _ [_] w); [now constructor|exact Hw].
Qed.

Ltac inh := match goal with
  | |- _ /\ _ => split; inh
  | |- True => exact I
  | |- exists _, True => exists (SOp Bang); exact I
  | |- exists _, exists _, _ => eexists; exists EmptyString; reflexivity
  | |- exists _, _ => eexists; reflexivity
  | |- _ \/ _ => left; inh
  end.
Ltac live := apply minhabited_ok; cbn; inh.

Lemma ident_run s : run (marked l_ident) s (sp_ident_parse span call_site s).
Proof.
  unfold sp_ident_parse. apply expect_bind; [live|]. intros x it E. cbv beta iota. destruct (ty x) eqn:T.
  all: first [apply run_ret; unfold step; rewrite T; constructor; eauto|apply run_err; apply (other_make ExpectedIdentifier); discriminate].
Qed.

Lemma ref_run s : run (marked l_ref) s (sp_production_ref_parse span call_site join_spans s).
Proof.
  unfold sp_production_ref_parse.
  eapply run_bind; [apply (with_run s (fun x => is_op x BeginProd) (eq (SOp BeginProd)) ExpectedBeginProd); try discriminate; [|eauto]| | |].
  - intros u H. apply is_op_ok in H. auto.
  - intros m s1. cbv beta iota. apply (expect_bind (marked (LSeq l_ident (LSeq (lop EndProd) LEmpty)))); [live|].
    intros x it E. cbv beta iota. destruct (ty x) as [|n| | | |] eqn:T.
    1, 3-6: apply run_err; apply (other_make ExpectedProductionName); discriminate.
    cbn [bind]. eapply run_bind; [apply (with_run _ (fun x => is_op x EndProd) (eq (SOp EndProd)) ExpectedEndProd); try discriminate; [|eauto]| | |].
    + intros u H. apply is_op_ok in H. auto.
    + intros m' s'. cbv beta iota. apply (run_ret (marked LEmpty)). constructor.
    + intros w v Hw Hv. unfold step. rewrite T. apply (k_seq _ _ [_]); [constructor; eauto|]. now constructor.
    + live.
  - intros w v Hw Hv. now constructor.
  - live.
Qed.

(** ** Rules *)

Lemma terminal_run s : run (marked l_node) s (sp_terminal_parse span call_site print s).
Proof.
  unfold sp_terminal_parse. apply expect_bind; [live|].
  intros x it E. cbv beta iota. destruct (ty x) as [o|n|l| | |] eqn:T.
  4-6: apply run_err; apply (other_make UnexpectedToken); discriminate.
  - destruct o; try (apply run_err; apply (other_make UnexpectedToken); discriminate).
    apply run_ret. unfold step. rewrite T. apply k_right, k_right, k_right. constructor. reflexivity.
  - unfold sp_parse_ident. assert (N : step (marked l_node) x false []).
    { unfold step. rewrite T. apply k_right, k_right, k_left. apply (k_seq _ _ [_] []); [constructor; eauto|]. apply k_left. constructor. }
    apply peek_bind; [eexists; exact N|].
    intros y it' E'. cbv beta iota. destruct (ty y) as [| | | |ts|] eqn:Ty; try (now apply run_ret).
    destruct (is_wildcard ts); (eapply take; [exact E'|]); apply run_ret; unfold step; rewrite T, Ty;
      apply k_right, k_right, k_left; (apply (k_seq _ _ [_] [_]); [constructor; eauto|]); apply k_right; constructor; eauto.
  - apply run_ret. unfold step. rewrite T. apply k_right, k_left. constructor. eauto.
Qed.

Lemma node_run s : run (marked l_node) s (sp_production_node_parse span call_site join_spans print s).
Proof.
  unfold sp_production_node_parse. apply peek_bind; [live|]. intros x it E. cbv beta iota.
  destruct (ty x) as [o| | | | |]; try apply terminal_run. destruct o; try apply terminal_run.
  eapply run_bind; [apply ref_run| | |].
  - intros [n m] s'. cbv beta iota. apply (run_ret (marked LEmpty)). constructor.
  - intros w v Hw Hv. inversion Hv. rewrite app_nil_r. now apply k_left.
  - live.
Qed.

Definition l_nodes : lrx := LSeq (LStar l_node) (lmaybe (LLook (fun t => exists d ts, t = SGroup d ts))).

Lemma nodes_cons w v : marked l_node w -> marked l_nodes v -> marked l_nodes (w ++ v).
Proof. intros Hw Hv. inversion Hv as [| | |? ? a b Ha Hb| | | |]; subst. rewrite app_assoc. constructor; [now constructor|exact Hb]. Qed.

Lemma nodes_nil : marked l_nodes [].
Proof. apply (k_seq _ _ [] []); [constructor|apply k_left; constructor]. Qed.

Lemma rule_loop_run fuel : forall m rule s, run (marked l_nodes) s (sp_rule_loop span call_site join_spans print fuel m rule s).
Proof.
  induction fuel as [|fuel IH]; intros m rule s; [intros _; exact I|]. cbn [sp_rule_loop].
  assert (Go : run (marked l_nodes) s
    (bind (sp_production_node_parse span call_site join_spans print s) (fun '(node, s) =>
       sp_rule_loop span call_site join_spans print fuel (merge span join_spans m (snd node)) (rule ++ [node]) s))).
  { eapply run_bind; [apply node_run| | |].
    - intros nd s'. cbv beta iota. apply IH.
    - apply nodes_cons.
    - exists []. apply nodes_nil. }
  apply peek_bind; [exists []; apply nodes_nil|]. intros x it E. cbv beta iota.
  destruct (ty x) as [o| | |d ts| |] eqn:T; try exact Go.
  - destruct o; try exact Go; apply run_ret, nodes_nil.
  - eapply take; [exact E|]. apply run_ret. unfold step. rewrite T. apply (k_seq _ _ [] [_]); [constructor|]. apply k_right. constructor. eauto.
Qed.

Lemma parse_rule_run s name rt : run (marked l_alternative) s (sp_parse_rule span call_site join_spans print s name rt).
Proof.
  unfold sp_parse_rule. eapply run_bind; [apply node_run| | |].
  - intros nd s1. cbv beta iota. eapply (run_bind (marked l_nodes) (marked LEmpty) (marked l_nodes)); [apply rule_loop_run| | |].
    + intros [[m rule] block] s2. cbv beta iota.
      destruct (find (fun node => pnode_is_epsilon (fst node)) rule); [destruct (1 <? List.length rule)%nat|]; try (apply run_ret; constructor).
      apply run_err. apply (other_make EpsilonNotAlone); discriminate.
    + intros w v Hw Hv. inversion Hv. now rewrite app_nil_r.
    + live.
  - intros w v Hw Hv. now constructor.
  - exists []. apply nodes_nil.
Qed.

Definition l_more : lrx := LSeq (LStar (LSeq (lop Pipe) l_alternative)) (LSeq (lop Semicolon) LEmpty).

Lemma alternatives_run fuel : forall name rt rules s, run (marked l_more) s (sp_alternatives span call_site join_spans print fuel name rt rules s).
Proof.
  induction fuel as [|fuel IH]; intros name rt rules s; [intros _; exact I|]. cbn [sp_alternatives].
  assert (Li : mlive (marked l_more)) by live.
  apply expect_bind; [exact Li|]. intros x it E. cbv beta iota.
  destruct (ty x) as [o| | | | |] eqn:T; try (apply run_err; apply (other_make ExpectedSemicolonOrPipe); discriminate).
  destruct o; try (apply run_err; apply (other_make ExpectedSemicolonOrPipe); discriminate).
  - apply run_ret. unfold step. rewrite T. apply (k_seq _ _ [] [_]); [constructor|]. apply (k_seq _ _ [_] []); now constructor.
  - eapply run_bind; [apply parse_rule_run| | |].
    + intros r s'. cbv beta iota. apply IH.
    + intros w v Hw Hv. unfold step. rewrite T. inversion Hv as [| | |? ? a b Ha Hb| | | |]; subst.
      rewrite app_assoc. apply (k_seq _ _ (_ :: w ++ a) b); [|exact Hb].
      apply (k_star_cons _ (_ :: w) a); [|exact Ha]. apply (k_seq _ _ [_] w); [now constructor|exact Hw].
    + exact Li.
Qed.

Lemma return_type_run s : run (marked (lmaybe (LSeq (LLook (eq (SOp Colon))) l_type))) s
  (sp_maybe_parse_return_type span call_site join_spans s).
Proof.
  assert (N : marked (lmaybe (LSeq (LLook (eq (SOp Colon))) l_type)) []) by (apply k_left; constructor).
  unfold sp_maybe_parse_return_type. apply peek_bind; [now exists []|]. intros x it E. cbv beta iota.
  destruct (ty x) as [o| | | | |] eqn:T; try (now apply run_ret). destruct o; try (now apply run_ret).
  eapply take; [exact E|]. eapply (run_bind (marked l_type) (marked LEmpty)); [apply type_run| | |].
  - intros m s'. cbv beta iota. apply run_ret. constructor.
  - intros w v Hw Hv. inversion Hv. rewrite app_nil_r. unfold step. rewrite T. apply k_right. apply (k_seq _ _ [_] w); [now constructor|exact Hw].
  - live.
Qed.

Lemma add_other m label rt : match sp_label_types_add span print m label rt with Err d => other d | _ => True end.
Proof.
  unfold sp_label_types_add. destruct (hm_get label m) as [ex|]; [|exact I]. destruct (negb _); [|exact I].
  destruct rt, ex; try exact I; apply (other_make DifferentReturnTypes); discriminate.
Qed.

Lemma declaration_run s m : run (marked l_declaration) s (sp_production_rule_parse span call_site join_spans print s m).
Proof.
  unfold sp_production_rule_parse. eapply run_bind; [apply ref_run| | |].
  - intros [name mt] s1. cbv beta iota.
    eapply (run_bind _ (marked (LSeq (lop Arrow) (LSeq l_alternatives (LSeq (lop Semicolon) LEmpty)))) (marked (LSeq (lmaybe (LSeq (LLook (eq (SOp Colon))) l_type)) (LSeq (lop Arrow) (LSeq l_alternatives (LSeq (lop Semicolon) LEmpty)))))); [apply return_type_run| | |].
    + intros rt s2. cbv beta iota. pose proof (add_other m name rt) as Ad.
      destruct (sp_label_types_add span print m name rt) as [lm|d| |]; cbn [bind]; try (intros _; exact I); [|now apply run_err].
      eapply run_bind; [apply (with_run _ (fun x => is_op x Arrow) (eq (SOp Arrow)) ExpectedArrow); try discriminate; [|eauto]| | |].
      * intros u H. apply is_op_ok in H. auto.
      * intros mt' s3. cbv beta iota. apply (run_bind (marked l_alternative) (marked l_more) (marked (LSeq l_alternatives (LSeq (lop Semicolon) LEmpty))));
          [apply parse_rule_run| | |].
        -- intros r s4. cbv beta iota. eapply (run_bind (marked l_more) (marked LEmpty)); [apply alternatives_run| | |].
           ++ intros rs s5. cbv beta iota. apply run_ret. constructor.
           ++ intros w v Hw Hv. inversion Hv. now rewrite app_nil_r.
           ++ live.
        -- intros w v Hw Hv. inversion Hv as [| | |? ? a b Ha Hb| | | |]; subst. rewrite app_assoc. constructor; [|exact Hb]. now constructor.
        -- live.
      * intros w v Hw Hv. now constructor.
      * live.
    + intros w v Hw Hv. now constructor.
    + live.
  - intros w v Hw Hv. now constructor.
  - live.
Qed.

(** ** The whole input *)

Lemma remainder_run {A} s n v (p : sp_stream -> outcome diag (A * sp_stream)) : minhabited v -> (forall s, run (marked v) s (p s)) ->
  run (marked (lseq_of [lop Colon; v; lop Semicolon])) s (sp_parse_option_remainder span call_site s n p).
Proof.
  intros Iv Hp. unfold sp_parse_option_remainder. rewrite colon_text, semicolon_text.
  assert (Li : mlive (marked (lseq_of [v; lop Semicolon]))) by (apply minhabited_ok; cbn; split; [exact Iv|inh]).
  eapply run_bind; [apply (with_run _ (fun x => is_op x Colon) (eq (SOp Colon)) (ExpectedColon n)); try discriminate; [|eauto]| | |exact Li].
  - intros u H. apply is_op_ok in H. auto.
  - intros m s1. cbv beta iota.
    apply (run_bind (marked v) (marked (lseq_of [lop Semicolon])) (marked (lseq_of [v; lop Semicolon]))); [apply Hp| | |].
    + intros a s2. cbv beta iota.
      eapply (run_bind _ (marked LEmpty)); [apply (with_run _ (fun x => is_op x Semicolon) (eq (SOp Semicolon)) (ExpectedSemicolon n)); try discriminate; [|eauto]| | |].
      * intros u H. apply is_op_ok in H. auto.
      * intros m' s3. cbv beta iota. apply run_ret. constructor.
      * intros w u Hw Hu. now constructor.
      * live.
    + intros w u Hw Hu. now constructor.
    + live.
  - intros w u Hw Hu. now constructor.
Qed.

Lemma keyword_ok n u : is_identifier_with_name u n = true -> SIdent n = u.
Proof. intro H. apply is_name_ok in H. auto. Qed.

Lemma name_run s : run (marked (l_option (LRead (eq (SIdent "name"))) l_ident)) s (sp_parse_name span call_site s).
Proof.
  unfold sp_parse_name, sp_parse_option. apply run_intercept. rewrite keyword_text.
  eapply run_bind; [apply (with_run _ (fun x => is_identifier_with_name x "name") (eq (SIdent "name")) (ExpectedKeyword "name")); try discriminate; [|eauto]| | |].
  - apply keyword_ok.
  - intros m s1. cbv beta iota. apply (remainder_run s1 "name" l_ident); [cbn; inh|apply ident_run].
  - intros w v Hw Hv. now constructor.
  - live.
Qed.

Lemma type_value_run {A} (f : list ttree -> A) s : run (marked l_type) s
  ('(ty, s) <- sp_type_parse span call_site join_spans s ;; Ok (f (mt_tokens span ty), s)).
Proof.
  eapply (run_bind (marked l_type) (marked LEmpty)); [apply type_run| | |].
  - intros m s'. cbv beta iota. apply run_ret. constructor.
  - intros w v Hw Hv. inversion Hv. now rewrite app_nil_r.
  - live.
Qed.

Definition l_terminal : lrx := LAlt (l_option (LRead (eq (SIdent "terminal"))) l_type) (l_option (LRead (eq (SIdent "enum_terminal"))) l_type).

Lemma terminal_type_run s : run (marked l_terminal) s (sp_parse_terminal_symbol_type span call_site join_spans s).
Proof.
  unfold sp_parse_terminal_symbol_type. assert (Li : mlive (marked l_terminal)) by live.
  apply intercept_bind.
  - apply expect_bind; [exact Li|]. intros x it E. cbv beta iota.
    destruct (is_identifier_with_name (ty x) "terminal") eqn:C1; [|destruct (is_identifier_with_name (ty x) "enum_terminal") eqn:C2].
    + apply run_intercept. eapply run_weaken; [apply (remainder_run _ _ l_type); [cbn; inh|intro; apply type_value_run]|].
      intros w Hw. unfold step. apply k_left. apply (k_seq _ _ [_] w); [constructor; now apply keyword_ok|exact Hw].
    + apply run_intercept. eapply run_weaken; [apply (remainder_run _ _ l_type); [cbn; inh|intro; apply type_value_run]|].
      intros w Hw. unfold step. apply k_right. apply (k_seq _ _ [_] w); [constructor; now apply keyword_ok|exact Hw].
    + apply run_err. apply (other_make ExpectedTerminalOption); discriminate.
  - unfold sp_expect_symbol. intros d H. destruct (ss_iter span s) as [|[x|d'] it] eqn:E; try discriminate.
    + injection H as <-. exact (at_end _ _ E Li).
    + injection H as <-. eapply bad_item; eauto.
Qed.

(** What follows, when the declarations are read as well. *)
Definition l_error_type : lrx := l_option (LLook (eq (SIdent "error_type"))) l_type.
Definition l_rest : lrx := LAlt (LSeq l_error_type (LStar l_declaration)) (LSeq l_declaration (LStar l_declaration)).

(** The same for a parser that leaves no stream: [L] is asked for only at an
    unexpected end. *)
Definition stops {A} (L : mlang) (s : sp_stream) (m : outcome diag A) : Prop :=
  clean (ss_iter span s) -> match m with Err d => ended L s d \/ other d | _ => True end.

Lemma stops_bind {A B} (L1 L2 L : mlang) s (m : outcome diag (A * sp_stream)) (k : A * sp_stream -> outcome diag B) :
  run L1 s m -> (forall a s', stops L2 s' (k (a, s'))) -> (forall w v, L1 w -> L2 v -> L (w ++ v)) -> mlive L2 -> stops L s (bind m k).
Proof.
  intros H K I [v Lv] C. specialize (H C). destruct m as [[a s1]|d| |]; cbn [bind]; auto.
  - destruct H as (w & E & Lw & Cu). rewrite E in C. apply clean_tail in C. specialize (K a s1 C).
    destruct (k (a, s1)) as [b|d| |]; auto.
    destruct K as [(w' & us & E' & Lw' & Cu')|K]; [|now right]. left. exists (w ++ w'), us. split; [|split].
    + rewrite E, E'. now rewrite map_app, map_app.
    + rewrite marks_app, <- app_assoc. auto.
    + rewrite after_app, <- Cu. exact Cu'.
  - destruct H as [(w & us & E & Lw & Cu)|H]; [|now right]. left. exists w, (us ++ v). split; [exact E|split; [|exact Cu]].
    rewrite app_assoc. auto.
Qed.

Lemma rules_loop_stops fuel : forall m rules s, stops (marked (LStar l_declaration)) s (sp_rules_loop span call_site join_spans print fuel m rules s).
Proof.
  induction fuel as [|fuel IH]; intros m rules s; [intros _; exact I|]. cbn [sp_rules_loop].
  assert (Go : stops (marked (LStar l_declaration)) s
    (bind (sp_production_rule_parse span call_site join_spans print s m) (fun '(rs, lt, s) =>
       sp_rules_loop span call_site join_spans print fuel lt (rules ++ rs) s))).
  { eapply stops_bind; [apply declaration_run| | |].
    - intros [rs lt] s'. cbv beta iota. apply IH.
    - intros w v Hw Hv. now constructor.
    - exists []. constructor. }
  destruct (ss_iter span s); [intros _; exact I|exact Go].
Qed.

Lemma stops_ok {A B} (L : mlang) s (m : outcome diag A) (k : A -> outcome diag B) : stops L s m -> (forall a, match k a with Err _ => False | _ => True end) ->
  stops L s (bind m k).
Proof. intros H K C. specialize (H C). destruct m as [a|d| |]; cbn [bind]; auto. specialize (K a). now destruct (k a). Qed.

Lemma rest_stops {A} s (k : option (list ttree) -> sp_label_type_map span * list (rule_at span) -> A) : stops (marked l_rest) s
  ('(error_type, s) <- sp_maybe_parse_error_type span call_site join_spans s ;;
   x <- sp_rules_loop span call_site join_spans print (S (List.length (ss_iter span s))) [] [] s ;;
   Ok (k error_type x)).
Proof.
  unfold sp_maybe_parse_error_type.
  assert (Li : mlive (marked l_rest)) by live.
  assert (Loop : forall et s, stops (marked (LStar l_declaration)) s
    (x <- sp_rules_loop span call_site join_spans print (S (List.length (ss_iter span s))) [] [] s ;; Ok (k et x))).
  { intros et s'. apply stops_ok; [apply rules_loop_stops|now intros]. }
  unfold sp_peek_expect_symbol. destruct (ss_iter span s) as [|[x|d] it] eqn:E.
  - unfold end_of_input, intercept. cbn [map_err bind]. intro C. left. destruct Li as [us Hu]. exists [], us. auto.
  - unfold intercept at 1. cbn [map_err bind]. destruct (is_identifier_with_name (ty x) "error_type") eqn:C; cbn [negb bind].
    + eapply stops_bind with (L2 := marked (LStar l_declaration)); [|apply Loop| |exists []; constructor].
      * apply run_intercept. eapply take; [exact E|]. eapply run_weaken.
        -- apply (remainder_run _ "error_type" l_type); [cbn; inh|intro; apply type_value_run].
        -- intros w Hw. exact (k_seq _ _ [_] w (k_look _ _ (keyword_ok _ _ C)) Hw).
      * intros w v Hw Hv. apply k_left. apply (k_seq _ _ w v); [exact Hw|exact Hv].
    + intro Cl. specialize (Loop None s Cl). rewrite E in *. destruct (x0 <- _ ;; _) as [a|d| |]; auto.
      destruct Loop as [(w & us & Ew & Lw & Cu)|O]; [|now right]. left. exists w, us. split; [exact Ew|split; [|exact Cu]].
      rewrite E in Ew. destruct w as [|z w]; [discriminate|]. cbn [marks map app] in *. apply k_right.
      inversion Lw as [| | | | | | |? a b Ha Hb Eq]; subst. now constructor.
  - unfold intercept. cbn [map_err bind]. intro C. right. destruct (C d) as (e & N & G & T); [rewrite E; now left|].
    exists e. split; [exact N|split; [exact G|]]. cbn [dg_message]. now constructor.
Qed.

Theorem declarations_stop its : stops (marked l_file) (stream_new span its)
  (sp_parse_declarations span call_site join_spans print (stream_new span its)).
Proof.
  unfold sp_parse_declarations. eapply stops_bind with (L2 := marked (lseq_of [l_terminal; l_rest])); [apply name_run| | |live].
  - intros name s1. cbv beta iota. eapply stops_bind with (L2 := marked (lseq_of [l_rest])); [apply terminal_type_run| | |live].
    + intros tt s2. cbv beta iota.
      pose proof (rest_stops s2 (fun et x => mk_declarations_at span name tt et (fst x) (snd x))) as H.
      intro C. specialize (H C).
      replace (_ <- sp_maybe_parse_error_type _ _ _ _ ;; _) with
        ('(error_type, s) <- sp_maybe_parse_error_type span call_site join_spans s2 ;;
         x <- sp_rules_loop span call_site join_spans print (S (List.length (ss_iter span s))) [] [] s ;;
         Ok (mk_declarations_at span name tt error_type (fst x) (snd x))).
      * destruct (bind _ _) as [a|d| |]; auto. destruct H as [(w & us & E & Lw & Cu)|O]; [|now right].
        left. exists w, us. split; [exact E|split; [|exact Cu]]. rewrite <- (app_nil_r (marks w ++ us)). constructor; [exact Lw|constructor].
      * destruct (sp_maybe_parse_error_type span call_site join_spans s2) as [[et s3]|d| |]; cbn [bind]; auto.
        destruct (sp_rules_loop _ _ _ _ _ _ _ _) as [[lt rs]|d| |]; reflexivity.
    + intros w v Hw Hv. now constructor.
  - intros w v Hw Hv. now constructor.
Qed.

(** ** Tokens *)

Lemma tokens_other ts : clean (sp_tokenize_from_stream span join_spans ts).
Proof.
  pose proof (stream_same join_spans ts) as F. intros d H. apply In_nth_error in H as [i Hi].
  revert i Hi. induction F as [|a b l l' S F IH]; intros [|i] Hi; try discriminate; [|eauto].
  injection Hi as ->. destruct b as [y|e]; [contradiction|]. simpl in S. destruct S as [Sm [us A]]. exists e. split; [|split].
  - intros ->. inversion A.
  - intros g ->. inversion A.
  - rewrite Sm. constructor.
Qed.

Lemma noted_starts m t : noted m t -> exists u, t = (m ++ u)%string.
Proof.
  induction 1 as [|t note _ [u ->]]; [exists ""; induction m as [|c m IH]; simpl; congruence|].
  exists (u ++ ": " ++ note)%string. now rewrite append_assoc.
Qed.

Lemma other_not_end d : other d -> ~ noted (error_text UnexpectedEnd) (dg_message span d).
Proof.
  intros (e & N & G & T) T'. apply noted_starts in T as [u U], T' as [v V]. rewrite U in V. clear U.
  destruct e; try discriminate; try (now elim N). now elim (G e).
Qed.

Theorem end_of_input_place ts d : well_spaced (trees ts) ->
  sp_parse_declarations span call_site join_spans print (stream_new span (sp_tokenize_from_stream span join_spans ts)) = Err d ->
  parse_declarations print (tokenize_from_stream (trees ts)) = Err UnexpectedEnd ->
  exists w us, symbols_at join_spans ts (map inl (map fst w)) /\ marked l_file (marks w ++ us) /\
    ~ matches a_file (types_at (map fst w)) /\ dg_span span d = last_looked call_site w.
Proof.
  intros W E1 E2. pose proof (declarations_post call_site join_spans print _ _ (stream_same join_spans ts)) as R.
  pose proof (declarations_stop _ (tokens_other ts)) as St. rewrite E1, E2 in *. simpl in R.
  destruct St as [(w & us & Ei & Lw & Cu)|O]; [|destruct (other_not_end _ O); exact (located_text _ _ _ _ _ _ R)].
  exists w, us. cbn [stream_new ss_iter] in Ei. split; [|split; [exact Lw|split]].
  - rewrite <- Ei. now apply (symbols_of_tokens call_site).
  - rewrite Ei in R. clear - R. remember (map inl (map fst w)) as its eqn:Ei. remember UnexpectedEnd as e eqn:Ee.
    destruct R as [? ? ? ? ? ? ? A| ? ? ? ? ? ? ? [vs A]|pre msg s S N _ P| |]; try discriminate.
    + subst. destruct A as [A|[u A]]; [discriminate|inversion A].
    + subst. inversion A.
    + replace (map fst w) with pre; [exact N|]. revert Ei. generalize (map fst w). clear.
      induction pre as [|x pre IH]; intros [|y l] E; try discriminate; [reflexivity|]. injection E as -> E. f_equal. auto.
  - rewrite Cu. apply after_last.
Qed.
End Spans.
