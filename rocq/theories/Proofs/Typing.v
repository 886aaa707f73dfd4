(** Emitted code is well typed. *)
From Coq Require Import Arith Bool String Ascii NArith List Lia Permutation.
From Verif Require Import Base.Prelude Spec.Grammar Spec.Values Spec.Substitution Spec.EmittedCode Spec.EmittedNames Spec.Macro Spec.Diagnostics Spec.Expansion Spec.Typing.
From Verif Require Import Model.IndexedGrammar Model.LRTable Model.TokenTree Model.Terminal Model.Constructor Model.CodeGen Model.Symbol Model.FrontEnd Model.Runtime Model.Rust Model.Emit Model.Diagnostics Model.Expand.
From Verif Require Model.TableText Proofs.TextLayout.
From Verif Require Import Proofs.WP Proofs.TableBuild Proofs.IndexedMain Proofs.StateMapFinal Proofs.GenCode Proofs.GenMain Proofs.Substitution Proofs.EmitRun Proofs.EmitMain Proofs.EmitNames Proofs.Macro Proofs.MacroMain Proofs.Diagnostics Proofs.ExpandMain.
Import ListNotations.
Open Scope string_scope.
Open Scope list_scope.

#[local] Arguments qualified_enum_variant_name : simpl never.
#[local] Arguments bound_variable_ident : simpl never.
#[local] Arguments state_action_function_name : simpl never.
#[local] Arguments unique_prefixed_ident : simpl never.

Section Code.
Variable u : user_code.
Variable em : emitted.
Variable g : string.
Variable ety : error_type.
Variable types : list (option (list ttree)).
Local Notation tok := (em_token em).
Local Notation token := (TyWritten (em_token em)).
Local Notation value := (TyWritten (em_value em)).
Local Notation state_var := (unique_prefixed_ident "state").
Local Notation typed := (typed u em).
Local Notation constructs := (constructs em).
Local Notation matches_type := (matches_type u em).

Hypothesis Herr : em_error em = error_type_tokens ety.
Hypothesis Hue : u_error u (em_error em).
Hypothesis Hclone : u_clone u tok.
Hypothesis Hdebug : u_debug u tok.
Hypothesis Hst : forall s ty, nth_error types s = Some ty -> constructs (qualified_enum_variant_name g s) [written ty] TyStates.

Lemma var_typed ret G x t : type_of G x = Some t -> typed ret G (EVar x) t.
Proof. apply ty_var. Qed.

Lemma typed_one ret G e t : typed ret G e t -> typed_all u em ret G [e] [t].
Proof. intros H. constructor; [exact H|constructor]. Qed.

Lemma arms_typed ret G t arms t' : (forall p e, In (p, e) arms -> exists bs, matches_type Owned ByMove p t bs /\ typed ret (bs ++ G) e t') ->
  typed_arms u em ret G t arms t'.
Proof.
  induction arms as [|[p e] arms IH]; intros H; [constructor|]. destruct (H p e (or_introl eq_refl)) as (bs & H1 & H2).
  econstructor; eauto. apply IH. intros; apply H; now right.
Qed.

Lemma one_pattern pl b p t bs : matches_type pl b p t bs -> match_types u em pl b [p] [t] bs.
Proof. intros H. rewrite <- (app_nil_r bs). constructor; [exact H|constructor]. Qed.

(** What is popped for a node. *)
Definition popped (b : bind_code) (t : rty) : Prop :=
  forall s, In s (b_arms b) -> exists ty, nth_error types s = Some ty /\
    match b_destruct b with
    | None => t = written ty
    | Some name => written ty = token /\ path_like tok /\ exists f, In (name, Some f) (u_variants u) /\ t = TyWritten f
    end.

Lemma wild_covers arms (e : expr) t : covers em (map fst (arms ++ [(PtWild, e)])) t.
Proof. apply cv_any with PtWild; [|exact I]. rewrite map_app. apply in_app_iff. right. now left. Qed.

Lemma extract_typed ret G b t : type_of G state_var = Some (TyRef true TyParserState) -> popped b t -> typed ret G (emit_extract_state g tok b) t.
Proof.
  intros Hs Hp. unfold emit_extract_state. eapply ty_match with (t := TyStates).
  - eapply ty_method; [apply ty_var; exact Hs|apply me_pop_state; constructor|constructor].
  - apply wild_covers.
  - apply arms_typed. intros p e H. apply in_app_iff in H as [H|[H|[]]].
    + apply in_map_iff in H as (s & He & Hi). inversion He; subst; clear He. exists [("v", t)]. split; [|apply ty_var; reflexivity].
      destruct (Hp s Hi) as (ty & Hty & Hd). specialize (Hst s ty Hty). destruct (b_destruct b) as [name|].
      * destruct Hd as (Ew & Hpl & f & Hf & ->). eapply mt_con; [exact Hst|]. apply one_pattern. rewrite Ew.
        eapply mt_variant_field; eauto. constructor.
      * subst t. eapply mt_con; [exact Hst|]. apply one_pattern. constructor.
    + inversion H; subst. exists []. split; [constructor|apply ty_unreachable].
Qed.

(** A context with the variables of a rule. *)
Definition extends (bt : bind_code -> rty -> Prop) (bs : list bind_code) (G G' : context) : Prop :=
  (forall x, (forall b, In b bs -> x <> bound_variable_ident (b_var b)) -> type_of G' x = type_of G x) /\
  (forall b, In b bs -> exists t, bt b t /\ type_of G' (bound_variable_ident (b_var b)) = Some t).

Lemma state_not_bound i : state_var <> bound_variable_ident i.
Proof. unfold unique_prefixed_ident, bound_variable_ident. discriminate. Qed.
Lemma peeked_not_bound i : peeked_val_ident <> bound_variable_ident i.
Proof. unfold peeked_val_ident, bound_variable_ident. discriminate. Qed.

Lemma binds_typed (bt : bind_code -> rty -> Prop) ret rest t bs : forall G, NoDup (map b_var bs) ->
  type_of G state_var = Some (TyRef true TyParserState) ->
  (forall b, In b bs -> exists tb, bt b tb /\ popped b tb) ->
  (forall G', extends bt bs G G' -> typed ret G' rest t) -> typed ret G (emit_binds g tok bs rest) t.
Proof.
  induction bs as [|b bs IH]; intros G Hn Hs Hb Hr; cbn [emit_binds].
  - apply Hr. split; [reflexivity|intros ? []].
  - destruct (Hb b (or_introl eq_refl)) as (tb & H1 & H2). inversion Hn as [|? ? Hn1 Hn2]; subst.
    eapply ty_let; [apply extract_typed; eauto|]. apply IH; auto.
    + intros b' Hi. apply Hb. now right.
    + intros G' (E1 & E2). apply Hr. split.
      * intros x Hx. rewrite E1 by (intros b' Hi; apply Hx; now right). cbn [type_of].
        destruct (String.eqb_spec x (bound_variable_ident (b_var b))) as [E|]; auto. exfalso. apply (Hx b (or_introl eq_refl) E).
      * intros b' [<-|Hi]; [|auto]. exists tb. split; auto. rewrite E1.
        -- cbn [type_of]. now rewrite String.eqb_refl.
        -- intros b' Hi E. apply variable_inj in E. apply Hn1. rewrite E. now apply in_map.
Qed.

(** Constructors. *)
Definition ctor_fits (i : nat) (c : ctor_code) (G : context) (ty : list ttree) : Prop :=
  match c with
  | CUnit => ty = unit_tokens
  | CDefault j => exists ty0, type_of G (bound_variable_ident j) = Some (TyWritten ty0) /\ u_try_into u ty0 ty
  | CUser body => u_body u i (map emit_body body) (type_of G) ty
  end.

Lemma ctor_typed t0 G i c ty : ctor_fits i c G ty -> typed (TyResult t0 TyParserError) G (emit_constructor ety i c) (TyWritten ty).
Proof.
  destruct c as [|j|body]; cbn [emit_constructor ctor_fits].
  - intros ->. constructor.
  - intros (ty0 & H1 & H2). eapply ty_try; [|reflexivity|apply tf_same]. apply ty_map_err; [|exact Hue].
    eapply ty_try_into; [apply ty_var; exact H1|exact H2].
  - intros H. eapply ty_try; [|reflexivity|apply tf_user; exact Hue]. rewrite <- Herr. apply ty_closure.
    eapply ty_con; [apply cs_ok|]. apply typed_one. apply ty_user. exact H.
Qed.

Local Notation fn_result := (control_result em).
Local Notation is_fn_context G := (type_of G state_var = Some (TyRef true TyParserState)).

Lemma continue_typed ret G : typed ret G (ECon ["Ok"] [ECon (p_control "Continue") []]) fn_result.
Proof. eapply ty_con; [apply cs_ok|]. apply typed_one. eapply ty_con; [apply cs_continue|constructor]. Qed.

Lemma push_typed ret G s e ty : is_fn_context G -> nth_error types s = Some ty -> typed ret G e (written ty) ->
  typed ret G (EMethod (EVar state_var) "push" [ECon (qualified_enum_variant_name g s) [e]]) (TyWritten unit_tokens).
Proof.
  intros Hs Ht He. eapply ty_method; [apply ty_var; exact Hs|apply me_push; constructor|]. apply typed_one.
  eapply ty_con; [eauto|]. now apply typed_one.
Qed.

Definition goto_fits (gt : goto_code) (ty : list ttree) : Prop :=
  let pushed s := exists o, nth_error types s = Some o /\ written o = TyWritten ty in
  match gt with
  | GotoOne s => pushed s
  | GotoMatch arms => forall from s, In (from, s) arms -> pushed s /\ from <> [] /\ forall s0, In s0 from -> exists o, nth_error types s0 = Some o
  end.

Lemma goto_typed G i c gt ty rest t : is_fn_context G -> ctor_fits i c G ty -> goto_fits gt ty ->
  (forall G', is_fn_context G' -> typed fn_result G' rest t) -> typed fn_result G (emit_goto g ety i c gt rest) t.
Proof.
  intros Hs Hc Hg Hr. destruct gt as [s|arms]; cbn [emit_goto goto_fits] in *.
  - destruct Hg as (o & Ho & Hw). eapply ty_seq; [|apply Hr; exact Hs]. eapply push_typed; eauto. rewrite Hw. now apply ctor_typed.
  - eapply ty_let; [apply ctor_typed; exact Hc|]. set (G' := ("__constructed", TyWritten ty) :: G).
    assert (Hs' : is_fn_context G') by exact Hs. eapply ty_seq; [|apply Hr; exact Hs'].
    eapply ty_match with (t := TyRef false TyStates) (t' := TyWritten unit_tokens).
    + eapply ty_method; [apply ty_var; exact Hs'|apply me_state; apply rd_ref|constructor].
    + apply wild_covers.
    + apply arms_typed. intros p e H. apply in_app_iff in H as [H|[H|[]]].
      * apply in_map_iff in H as ([from s] & He & Hi). inversion He; subst; clear He. cbn [fst snd].
        destruct (Hg from s Hi) as ((o & Ho & Hw) & Hne & Hf). exists []. split.
        -- unfold match_any. apply mt_or; [destruct from; [congruence|discriminate]|].
           intros p Hp. apply in_map_iff in Hp as (s0 & <- & Hs0). destruct (Hf s0 Hs0) as (o0 & Ho0).
           apply mt_through; [exact I|]. eapply mt_con_rest; [eauto|discriminate].
        -- cbn [app]. eapply push_typed; eauto. rewrite Hw. apply ty_var. reflexivity.
      * inversion H; subst. exists []. split; [constructor|apply ty_unreachable].
Qed.

(** Matchers of tokens: what is bound by those with a name. *)
Definition field_type (pt : pat_code) (f : list ttree) : Prop :=
  match pt with PBind n | PBindPat n _ => In (n, Some f) (u_variants u) | _ => False end.
Definition pattern_fits (pt : pat_code) : Prop :=
  match pt with
  | PLiteral l => u_literal u l tok
  | PVariant n => path_like tok /\ In (n, None) (u_variants u)
  | PRest n | PBind n => path_like tok /\ exists f, In (n, Some f) (u_variants u)
  | PPat n pat => path_like tok /\ exists f, In (n, Some f) (u_variants u) /\ u_pattern u pat f
  | PBindPat n pat => path_like tok /\ u_single u pat /\ exists f, In (n, Some f) (u_variants u) /\ u_pattern u pat f
  | PClone _ => False
  end.
Definition matcher_fits (m : matcher) : Prop := match m with MNone => True | MSome pt => pattern_fits pt end.
Definition bound_of (m : matcher) (bs : context) : Prop :=
  match m with
  | MSome (PBind n) | MSome (PBindPat n _) => exists f, In (n, Some f) (u_variants u) /\ bs = [(wildcard_bound_variable, TyRef false (TyWritten f))]
  | _ => bs = []
  end.

Local Notation peeked := (TyOption (TyRef false token)).

Lemma matcher_typed m : matcher_fits m -> exists bs, matches_type Owned ByMove (emit_matcher tok m) peeked bs /\ bound_of m bs.
Proof.
  destruct m as [|pt]; cbn [matcher_fits emit_matcher].
  - intros _. exists []. split; [|reflexivity]. eapply mt_con; [apply cs_none|constructor].
  - destruct pt as [l|n|n|n|n pat|n pat|n]; cbn [pattern_fits emit_pattern].
    + intros H. exists []. split; [|reflexivity]. eapply mt_con; [apply cs_some|]. apply one_pattern. apply mt_ref. now apply mt_literal.
    + intros (H1 & H2). exists []. split; [|reflexivity]. eapply mt_con; [apply cs_some|]. apply one_pattern. apply mt_ref. now apply mt_variant.
    + intros (H1 & f & H2). exists []. split; [|reflexivity]. eapply mt_con; [apply cs_some|]. apply one_pattern.
      apply mt_through; [exact I|]. eapply mt_variant_rest; eauto.
    + intros (H1 & f & H2). eexists. split; [|exists f; split; [exact H2|reflexivity]]. eapply mt_con; [apply cs_some|]. apply one_pattern.
      apply mt_through; [exact I|]. eapply mt_variant_field; eauto. apply mt_by_ref.
    + intros (H1 & f & H2 & H3). exists []. split; [|reflexivity]. eapply mt_con; [apply cs_some|]. apply one_pattern. apply mt_ref.
      eapply mt_variant_field; eauto. now apply mt_user.
    + intros (H1 & H0 & f & H2 & H3). eexists. split; [|exists f; split; [exact H2|reflexivity]]. eapply mt_con; [apply cs_some|]. apply one_pattern. apply mt_ref.
      eapply mt_variant_field; eauto. now apply mt_ref_bind.
    + intros [].
Qed.

Definition shift_fits (a : matcher * nat * pat_code) : Prop :=
  let '(m, s, rhs) := a in
  matcher_fits m /\ nth_error types s = Some (Some tok) /\
  match rhs with
  | PLiteral l => u_literal u l tok
  | PVariant n => path_like tok /\ In (n, None) (u_variants u)
  | PClone n => path_like tok /\ exists f, In (n, Some f) (u_variants u) /\ u_clone u f /\
      match m with MSome (PBind n') | MSome (PBindPat n' _) => forall f', In (n', Some f') (u_variants u) -> f' = f | _ => False end
  | _ => False
  end.

(** The binds and constructor of a rule, in any context they are used in. *)
Definition rule_fits (i : nat) (bs : list bind_code) (c : ctor_code) (ty : list ttree) : Prop :=
  exists bt : bind_code -> rty -> Prop, NoDup (map b_var bs) /\ (forall b, In b bs -> exists tb, bt b tb /\ popped b tb) /\
  (forall b t, bt b t -> exists ty, t = TyWritten ty) /\ forall G G', extends bt bs G G' -> ctor_fits i c G' ty.

Record state_fits (c : state_code) : Prop := mk_state_fits {
  sf_shift : forall a, In a (sc_shift c) -> shift_fits a;
  sf_reduce : forall ms r, In (ms, r) (sc_reduce c) -> ms <> [] /\ (forall m, In m ms -> matcher_fits m /\ binds_nothing m = true) /\
    exists ty, rule_fits (r_rule r) (r_binds r) (r_ctor r) ty /\ goto_fits (r_goto r) ty;
  sf_accept : forall m a, sc_accept c = Some (m, a) -> m = MNone /\ rule_fits (a_rule a) (a_binds a) (a_ctor a) (em_value em);
  sf_check : forall ms, sc_check c = Some ms -> ms <> [] /\ forall m, In m ms -> matcher_fits m;
}.

Local Notation fn_context G := (is_fn_context G /\ type_of G peeked_val_ident = Some peeked).

Lemma extends_state bt bs G G' : extends bt bs G G' -> is_fn_context G -> is_fn_context G'.
Proof. intros (H & _) Hs. rewrite H; auto. intros b _. apply state_not_bound. Qed.

Lemma unnamed_bound m bs : binds_nothing m = true -> bound_of m bs -> bs = [].
Proof. destruct m as [|[]]; cbn; intros H; try discriminate H; auto. Qed.

Lemma others_typed c G t : state_fits c -> fn_context G -> forall p e,
  In (p, e) (map (emit_reduce_arm g tok ety) (sc_reduce c) ++ match sc_accept c with Some a => [emit_accept_arm g tok ety a] | None => [] end ++ emit_return_err) ->
  exists bs, matches_type Owned ByMove p peeked bs /\ typed fn_result (bs ++ G) e t.
Proof.
  intros [_ Hr Ha _] (Hs & Hpk) p e H. apply in_app_iff in H as [H|H]; [|apply in_app_iff in H as [H|H]].
  - apply in_map_iff in H as ([ms r] & He & Hi). cbn [emit_reduce_arm] in He. inversion He; subst; clear He.
    destruct (Hr ms r Hi) as (Hne & Hm & ty & (bt & Hnd & Hb & _ & Hc) & Hg). exists []. split.
    + apply mt_or; [destruct ms; [congruence|discriminate]|]. intros p Hp. apply in_map_iff in Hp as (m & <- & Hmi). destruct (Hm m Hmi) as (H1 & H2).
      destruct (matcher_typed m H1) as (bs & H3 & H4). now rewrite (unnamed_bound m bs H2 H4) in H3.
    + cbn [app]. apply binds_typed with (bt := bt); auto. intros G' HG. pose proof (extends_state _ _ _ _ HG Hs) as Hs'.
      apply goto_typed with (ty := ty); eauto. intros G2 _. apply ty_return. apply continue_typed.
  - destruct (sc_accept c) as [[m a]|]; [|destruct H]. destruct H as [H|[]]. cbn [emit_accept_arm] in H. inversion H; subst; clear H.
    destruct (Ha m a eq_refl) as (-> & bt & Hnd & Hb & _ & Hc). exists []. split.
    + destruct (matcher_typed MNone I) as (bs & H3 & H4). cbn in H4. now subst bs.
    + cbn [app]. apply binds_typed with (bt := bt); auto. intros G' HG. pose proof (extends_state _ _ _ _ HG Hs) as Hs'.
      eapply ty_seq; [eapply ty_method; [apply ty_var; exact Hs'|apply me_verify; apply rd_ref|constructor]|].
      apply ty_return. eapply ty_con; [apply cs_ok|]. apply typed_one. eapply ty_con; [apply cs_accept|]. apply typed_one. apply ctor_typed. eauto.
  - destruct H as [H|[H|[]]]; inversion H; subst; clear H.
    + exists [("peeked_token", TyRef false token)]. split.
      * eapply mt_con; [apply cs_some|]. apply one_pattern. constructor.
      * apply ty_return. eapply ty_con; [apply cs_err|]. apply typed_one. eapply ty_call; [apply ft_error|]. apply typed_one.
        eapply ty_con; [apply cs_some|]. apply typed_one. eapply ty_method; [apply ty_var; reflexivity|apply me_clone; exact Hclone|constructor].
    + exists []. split.
      * eapply mt_con; [apply cs_none|constructor].
      * apply ty_return. eapply ty_con; [apply cs_err|]. apply typed_one. eapply ty_call; [apply ft_error|]. apply typed_one.
        eapply ty_con; [apply cs_none|constructor].
Qed.

Lemma peek_typed G : is_fn_context G -> typed fn_result G emit_peek_next peeked.
Proof.
  intros Hs. unfold emit_peek_next. eapply ty_try with (err := TyParserError); [|reflexivity|apply tf_same].
  eapply ty_method; [|apply me_transpose|constructor]. eapply ty_map with (t := TyRef false (TyResult TyB TyE)).
  - eapply ty_method; [eapply ty_method; [apply ty_var; exact Hs|apply me_stream; apply rd_ref|constructor]|apply me_peek_next; apply rd_ref|constructor].
  - eapply ty_match; [apply ty_var; reflexivity| |].
    + apply cv_ref, cv_result; right.
      * exists [PtVar "token"]. split; [now left|]. split; auto. constructor; [exact I|constructor].
      * exists [PtVar "err"]. split; [right; now left|]. split; auto. constructor; [exact I|constructor].
    + apply arms_typed. intros p e [H|[H|[]]]; inversion H; subst; clear H.
      * exists [("token", TyRef false TyB)]. split.
        -- apply mt_through; [exact I|]. eapply mt_con; [apply cs_ok|]. apply one_pattern. constructor.
        -- eapply ty_con; [apply cs_ok|]. apply typed_one. eapply ty_method; [apply ty_var; reflexivity|apply me_borrow|constructor].
      * exists [("err", TyRef false TyE)]. split.
        -- apply mt_through; [exact I|]. eapply mt_con; [apply cs_err|]. apply one_pattern. constructor.
        -- eapply ty_con; [apply cs_err|]. apply typed_one.
           eapply ty_method; [eapply ty_method; [apply ty_var; reflexivity|apply me_clone_error|constructor]|apply me_into_user_error|constructor].
Qed.

Lemma check_typed ck G rest t : (forall ms, ck = Some ms -> ms <> [] /\ forall m, In m ms -> matcher_fits m) ->
  type_of G peeked_val_ident = Some peeked -> typed fn_result G rest t -> typed fn_result G (emit_check tok ck rest) t.
Proof.
  intros Hc Hpk Hr. destruct ck as [ms|]; cbn [emit_check]; auto. destruct (Hc ms eq_refl) as (Hne & Hm). apply ty_debug; auto. eapply ty_let.
  - eapply ty_sum_matches; [exact Hpk| |destruct ms; [congruence|discriminate]].
    intros p Hp. apply in_map_iff in Hp as (m & <- & Hi). destruct (matcher_typed m (Hm m Hi)) as (bs & H & _). eauto.
  - apply ty_if_more; [apply ty_var; reflexivity|]. apply ty_return. eapply ty_con; [apply cs_err|]. apply typed_one.
    eapply ty_call; [apply ft_overlap|]. apply typed_one. apply ty_format; [exact Hpk|exact Hdebug].
Qed.

Lemma shift_typed a G : shift_fits a -> exists bs, matches_type Owned ByMove (fst (emit_shift_arm g tok a)) peeked bs /\
  typed fn_result (bs ++ G) (snd (emit_shift_arm g tok a)) TyStates.
Proof.
  destruct a as [[m s] rhs]. cbn [emit_shift_arm fst snd shift_fits]. intros (Hm & Hs & Hr). destruct (matcher_typed m Hm) as (bs & H1 & H2).
  exists bs. split; auto. eapply ty_con; [exact (Hst _ _ Hs)|]. apply typed_one. cbn [written].
  destruct rhs as [l|n|n|n|n pat|n pat|n]; try contradiction; cbn [emit_token].
  - now apply ty_literal.
  - destruct Hr. now apply ty_variant.
  - destruct Hr as (Hpl & f & Hf & Hcl & Hx). eapply ty_variant_field; eauto.
    assert (Hb : bs = [(wildcard_bound_variable, TyRef false (TyWritten f))]).
    { destruct m as [|[]]; try contradiction; cbn in H2; destruct H2 as (f' & Hf' & ->); now rewrite (Hx f' Hf'). }
    subst bs. eapply ty_method; [apply ty_var; reflexivity|apply me_clone; exact Hcl|constructor].
Qed.

Lemma peeked_covers arms : covers em (map fst (arms ++ emit_return_err)) peeked.
Proof.
  rewrite map_app. apply cv_option; right.
  - exists []. split; [apply in_app_iff; right; right; now left|]. auto.
  - exists [PtVar "peeked_token"]. split; [apply in_app_iff; right; now left|]. split; auto. constructor; [exact I|constructor].
Qed.

Lemma actions_typed c : state_fits c -> typed fn_result [(state_var, TyRef true TyParserState)] (emit_actions g tok ety c) fn_result.
Proof.
  intros Hf. unfold emit_actions. eapply ty_let; [apply peek_typed; reflexivity|]. set (G := (peeked_val_ident, peeked) :: _).
  assert (HG : fn_context G) by (split; reflexivity). pose proof (fun t => others_typed c G t Hf HG) as Hoth. clearbody G.
  apply check_typed; [apply sf_check; exact Hf|apply HG|]. destruct (sc_shift c) as [|sa shifts] eqn:Hs.
  - eapply ty_match; [apply ty_var; apply HG|rewrite app_assoc; apply peeked_covers|]. apply arms_typed. apply Hoth.
  - rewrite <- Hs. eapply ty_let with (t := TyStates).
    + eapply ty_match; [apply ty_var; apply HG|rewrite !app_assoc, <- app_assoc, app_assoc; apply peeked_covers|]. apply arms_typed. intros p e H.
      apply in_app_iff in H as [H|H]; [|now apply Hoth]. apply in_map_iff in H as (a & He & Hi).
      destruct (shift_typed a G (sf_shift _ Hf a Hi)) as (bs & H1 & H2). rewrite He in H1, H2. eauto.
    + set (G' := ("next_state", TyStates) :: G). assert (HG' : is_fn_context G') by exact (proj1 HG).
      eapply ty_seq; [eapply ty_method; [eapply ty_method; [apply ty_var; exact HG'|apply me_stream_mut; apply wr_ref|constructor]|apply me_advance; apply wr_ref|constructor]|].
      eapply ty_seq; [eapply ty_method; [apply ty_var; exact HG'|apply me_push; apply wr_ref|apply typed_one; apply ty_var; reflexivity]|].
      apply continue_typed.
Qed.

Lemma loop_typed n root : nth_error types root = Some None -> n = List.length types ->
  (forall v ty, In (v, ty) (e_variants (em_enum em)) -> exists s, s < n /\ [e_name (em_enum em); v] = qualified_enum_variant_name g s) ->
  (forall s, s < n -> exists f, In f (em_fns em) /\ f_name f = state_action_function_name s) ->
  typed (TyResult value TyParserError) [(unique_prefixed_ident "input_stream", TyInput)] (emit_parse_loop g n root) (TyResult value TyParserError).
Proof.
  intros Hroot Hn Hv Hf. unfold emit_parse_loop. eapply ty_let.
  - eapply ty_call; [apply ft_new|]. constructor; [eapply ty_method; [apply ty_var; reflexivity|apply me_into_iter|constructor]|]. apply typed_one.
    eapply ty_con; [exact (Hst _ _ Hroot)|]. apply typed_one. constructor.
  - apply ty_loop. eapply ty_let with (t := TyControl value).
    + eapply ty_try; [|reflexivity|apply tf_same]. eapply ty_match with (t := TyRef false TyStates).
      * eapply ty_method; [apply ty_var; reflexivity|apply me_state; apply rd_value|constructor].
      * apply cv_ref, cv_states. intros v ty Hi. left. destruct (Hv v ty Hi) as (s & Hs & ->). rewrite map_map. cbn [fst].
        apply in_map_iff. exists s. split; [reflexivity|]. apply in_seq. lia.
      * apply arms_typed. intros p e H. apply in_map_iff in H as (s & He & Hi). apply in_seq in Hi. inversion He; subst p e; clear He. exists []. split.
        -- apply mt_through; [exact I|]. destruct (nth_error types s) as [ty|] eqn:Hty; [|apply nth_error_None in Hty; lia].
           eapply mt_con_rest; [eauto|discriminate].
        -- destruct (Hf s) as (f & Hfi & <-); [lia|]. eapply ty_call; [apply ft_fn; exact Hfi|]. apply typed_one. apply ty_ref_mut. reflexivity.
    + eapply ty_match; [apply ty_var; reflexivity| |].
      * apply cv_control; right.
        -- exists []. split; [right; now left|]. auto.
        -- exists [PtVar "result"]. split; [now left|]. split; auto. constructor; [exact I|constructor].
      * apply arms_typed. intros p e [H|[H|[]]]; inversion H; subst; clear H.
        -- exists [("result", value)]. split; [eapply mt_con; [apply cs_accept|]; apply one_pattern; constructor|].
           apply ty_return. eapply ty_con; [apply cs_ok|]. apply typed_one. apply ty_var. reflexivity.
        -- exists []. split; [eapply mt_con; [apply cs_continue|constructor]|constructor].
Qed.
End Code.

(** ** What generated code needs *)
Lemma node_indices_in ns : forall j k nd, nth_error ns k = Some nd -> nd <> PNEpsilon -> In (j + k) (node_indices_from j ns).
Proof.
  induction ns as [|n ns IH]; intros j [|k] nd H Hne; cbn in H; try discriminate.
  - injection H as ->. rewrite Nat.add_0_r. destruct nd; try congruence; now left.
  - specialize (IH (S j) k nd H Hne). rewrite Nat.add_succ_r, <- Nat.add_succ_l. destruct n; cbn [node_indices_from]; try right; exact IH.
Qed.

Lemma node_indices_ge ns : forall j k, In k (node_indices_from j ns) -> j <= k.
Proof.
  induction ns as [|n ns IH]; intros j k H; [destruct H|]. destruct n; cbn [node_indices_from] in H.
  1,2: destruct H as [<-|H]; [lia|]; apply IH in H; lia.
  apply IH in H. lia.
Qed.
Lemma node_indices_nodup ns : forall j, NoDup (node_indices_from j ns).
Proof.
  induction ns as [|n ns IH]; intros j; [constructor|]. destruct n; cbn [node_indices_from]; auto; constructor; auto; intros H; apply node_indices_ge in H; lia.
Qed.

Lemma in_fst_unique {A B} (l : list (A * B)) a b b' : NoDup (map fst l) -> In (a, b) l -> In (a, b') l -> b = b'.
Proof.
  induction l as [|[x y] l IH]; intros Hn H H'; [destruct H|]. inversion Hn as [|? ? H1 H2]; subst.
  destruct H as [H|H], H' as [H'|H']; try congruence; auto.
  - injection H as -> ->. exfalso. apply H1. now apply (in_map fst) in H'.
  - injection H' as -> ->. exfalso. apply H1. now apply (in_map fst) in H.
Qed.

Lemma body_same b : emit_body b = body_text b.
Proof. reflexivity. Qed.

Section Main.
Context {bm : BuildMode} (literal_ok : string -> bool) (gi : grammar_info) (p : program) (u : user_code) (d : declarations).
Hypothesis Hfor : generated_for literal_ok d p gi.
Hypothesis Hlabels : forall r, In r (d_rules d) -> exists ty, hm_get (pr_name r) (d_label_types d) = Some ty /\ (ty = None <-> pr_type r = None).
Hypothesis Hfirst : forall r, nth_error (d_rules d) 0 = Some r -> hm_get (pr_name r) (d_label_types d) = Some (pr_type r).
Hypothesis Hfits : user_part_fits u d.
Hypothesis Hsingle : single_patterns u d.
Hypothesis Hplain : plain_token_type d.
Hypothesis Hparams : parameters_unused d.
Variable vis : visibility.
Local Notation ety := (match d_error_type d with Some ty => Custom ty | None => NoErrorType end).
Local Notation em := (emit vis (d_name d) ety (d_terminal_type d) (Some (value_type (d_rules d))) p).
Local Notation tok := (inner_type (d_terminal_type d)).

Let Hgen : generated literal_ok gi p.
Proof. exact (proj2 (proj2 (proj2 Hfor))). Qed.
Let Htt : gi_terminal_type gi = d_terminal_type d.
Proof. exact (proj1 Hfor). Qed.
Let Hrules : gi_rules gi = d_rules d.
Proof. exact (proj1 (proj2 Hfor)). Qed.
Let Hget : forall l, hm_get l (gi_label_types gi) = hm_get l (d_label_types d).
Proof. exact (proj1 (proj2 (proj2 Hfor))). Qed.

Lemma argument_unique nd ty ty' : argument_type u d nd ty -> argument_type u d nd ty' -> ty = ty'.
Proof.
  intros H H'. inversion H as [l t L|n|n pa t Hp Hv]; subst; inversion H' as [l' t' L'|n'|n' pa' t' Hp' Hv']; subst; try congruence.
  - destruct L as (o & Ho & ->), L' as (o' & Ho' & ->). rewrite Ho in Ho'. now injection Ho' as <-.
  - assert (E : Some ty = Some ty') by (eapply in_fst_unique; [exact (uf_variants _ _ Hfits)|eassumption..]). congruence.
Qed.

Lemma pattern_ok sy mode pt : terminal_in (d_rules d) sy -> mode <> Rhs -> try_build_pattern literal_ok (d_terminal_type d) sy mode = Ok pt -> pattern_fits u em pt.
Proof.
  intros Hin Hm H. pose proof (uf_terminals _ _ Hfits sy Hin) as Ht. unfold terminal_fits in Ht. unfold plain_token_type in Hplain.
  unfold try_build_pattern in H. destruct (d_terminal_type d) as [ty|ty] eqn:E.
  - unfold as_literal in H. destruct (sparen sy); try discriminate H. destruct (literal_ok (sname sy)); try discriminate H. cbn [bind] in H. injection H as <-. exact Ht.
  - unfold as_pattern, as_ident in H. destruct (string_is_identifier (sname sy)); try discriminate H. cbn [bind] in H. injection H as <-.
    destruct (sparen sy) as [pat| |] eqn:Ep.
    + destruct Ht as (f & Hf & _ & Hp). destruct mode; [| |congruence].
      * split; [exact Hplain|]. split; [|eauto]. apply (Hsingle (sname sy)). destruct sy as [nm pa]. cbn in *. now subst pa.
      * split; [exact Hplain|eauto].
    + destruct Ht as (f & Hf & _). destruct mode; [| |congruence]; (split; [exact Hplain|eauto]).
    + split; [exact Hplain|exact Ht].
Qed.

Lemma matcher_ok a mode m : (forall sy, a = Token sy -> terminal_in (d_rules d) sy) -> mode <> Rhs -> token_matcher literal_ok (d_terminal_type d) a mode = Ok m ->
  matcher_fits u em m.
Proof.
  intros Hin Hm H. destruct a as [sy| |]; cbn [token_matcher] in H; [|try discriminate H; injection H as <-; exact I..].
  unfold try_build_matcher in H. destruct (try_build_pattern literal_ok (d_terminal_type d) sy mode) as [pt| | |] eqn:E; try discriminate H. cbn [bind] in H. injection H as <-.
  exact (pattern_ok sy mode pt (Hin sy eq_refl) Hm E).
Qed.

Lemma popped_symbol i bs b r sy : pops p i bs -> In b bs -> nth_error (gi_rules gi) i = Some r -> nth_error (pr_nodes r) (b_var b) = Some (PNSymbol sy) ->
  exists pt, try_build_pattern literal_ok (d_terminal_type d) sy Named = Ok pt.
Proof.
  intros (c & Hc & Hcase) Hb Hr Hnd. destruct (generated_setup literal_ok gi p Hgen) as (F & ks & acts & gts & Hsu & _ & _ & Hp). specialize (Hp bm p Hgen).
  apply In_nth_error in Hc as (s & Hs). destruct (po_states _ _ _ _ _ Hp) as (Hl & Hst). pose proof (Hst s c Hs) as Hcode.
  assert (Hbd : exists k fin, bound gi acts gts (pr_nodes r) k [s] bs fin).
  { destruct Hcase as [(ms & rc & Hin & <- & <-)|(m & ac & Ha & <- & <-)].
    - destruct (co_reduce _ _ _ _ _ _ Hcode _ _ Hin) as (j & _ & [(ir & pr & fin & H1 & H2 & H3 & _ & H5 & _)] & _). rewrite H3, H2 in Hr. injection Hr as <-. eauto.
    - destruct (co_accept _ _ _ _ _ _ Hcode _ _ Ha) as (_ & _ & [(ir & pr & fin & H1 & H2 & H3 & H4 & _ & H6)]). rewrite H4, H2 in Hr. injection Hr as <-. eauto. }
  destruct Hbd as (k & fin & Hbd). assert (Hne : [s] <> []) by discriminate. clear Hs Hcode Hcase. revert Hne Hb. generalize dependent [s].
  intros ss Hbd. induction Hbd as [ss|q ss arms nd bs ss' fin Hn He Harms Hss Hbd IH]; intros Hne Hb; [destruct Hb|].
  assert (Hx : exists s s0 X, In s ss /\ s0 < num_states (gi_table gi) /\ iedge acts gts s0 X s /\ prel gi nd X /\ In s0 ss').
  { destruct ss as [|s1 ss]; [congruence|]. destruct (Hss s1 (or_introl eq_refl)) as (H1 & H2 & H3).
    destruct (incoming gi F ks acts gts Hsu s1 H1 H2) as (s0 & X & H4 & H5). destruct (H3 _ _ H4 H5). exists s1, s0, X. repeat split; auto. now left. }
  destruct Hx as (s1 & s0 & X & _ & H4 & H5 & H6 & H7). destruct Hb as [<-|Hb].
  - cbn [b_var] in Hnd. rewrite Hn in Hnd. injection Hnd as ->. destruct X as [[i0| |]|l]; cbn in H6; try contradiction.
    destruct (nth_error (p_states p) s0) as [c0|] eqn:Hc0; [|apply nth_error_None in Hc0; lia].
    destruct (co_shift_c _ _ _ _ _ _ (Hst s0 c0 Hc0) sy i0 s1 H6 H5) as (pt & _ & _ & Hpt & _). rewrite Htt in Hpt. eauto.
  - apply IH; auto. intros ->. destruct H7.
Qed.

Lemma bind_ok i bs b r : pops p i bs -> nth_error (gi_rules gi) i = Some r -> In b bs ->
  exists nd ty, nth_error (pr_nodes r) (b_var b) = Some nd /\ argument_type u d nd ty /\ popped u em (p_types p) b (TyWritten ty).
Proof.
  intros Hp Hr Hb. destruct (main_types literal_ok gi p Hgen) as (Ht & _). destruct (Ht i bs Hp) as (r' & Hr' & _ & Hall). rewrite Hr in Hr'. injection Hr' as <-.
  destruct (Hall b Hb) as (nd & Hnd & Hne & Hd & Hs). destruct (b_arms b) as [|s0 arms] eqn:Ha; [congruence|]. rewrite <- Ha in *.
  assert (Hs0 : In s0 (b_arms b)) by (rewrite Ha; now left). destruct (Hs s0 Hs0) as (o & _ & Ho).
  destruct nd as [l|sy|]; cbn [node_type] in *; [| |discriminate Ho].
  - rewrite Hget in Ho. exists (PNProduction l), (match o with Some ts => ts | None => unit_tokens end). split; auto. split; [constructor; exists o; auto|].
    intros s Hi. destruct (Hs s Hi) as (o' & Hn & Ho'). rewrite Hget, Ho in Ho'. injection Ho' as <-. exists o. split; auto. rewrite Hd. reflexivity.
  - destruct sy as [n pa]. destruct (popped_symbol i bs b r _ Hp Hb Hr Hnd) as (pt & Hpt).
    assert (Hin : terminal_in (d_rules d) (mk_symbol n pa)) by (rewrite <- Hrules; exists r; split; eapply nth_error_In; eauto).
    pose proof (uf_terminals _ _ Hfits _ Hin) as Hf. unfold terminal_fits in Hf. unfold try_build_pattern in Hpt. cbn [sparen sname node_field] in *.
    destruct pa as [pat| |].
    + assert (Hx : path_like tok /\ exists f, In (n, Some f) (u_variants u)).
      { unfold plain_token_type in Hplain. destruct (d_terminal_type d); [discriminate Hpt|]. destruct Hf as (f & Hf & _). eauto. }
      destruct Hx as (Hpl & f & Hv). exists (PNSymbol (mk_symbol n (PGPattern pat))), f. split; auto. split; [apply at_field; [discriminate|exact Hv]|].
      intros s Hi. destruct (Hs s Hi) as (o' & Hn & Ho'). exists o'. split; auto. rewrite Hd. injection Ho' as <-. rewrite Htt. split; [reflexivity|]. split; [exact Hpl|]. eauto.
    + assert (Hx : path_like tok /\ exists f, In (n, Some f) (u_variants u)).
      { unfold plain_token_type in Hplain. destruct (d_terminal_type d); [discriminate Hpt|]. destruct Hf as (f & Hf & _). eauto. }
      destruct Hx as (Hpl & f & Hv). exists (PNSymbol (mk_symbol n PGWildcard)), f. split; auto. split; [apply at_field; [discriminate|exact Hv]|].
      intros s Hi. destruct (Hs s Hi) as (o' & Hn & Ho'). exists o'. split; auto. rewrite Hd. injection Ho' as <-. rewrite Htt. split; [reflexivity|]. split; [exact Hpl|]. eauto.
    + exists (PNSymbol (mk_symbol n PGNone)), tok. split; auto. split; [constructor|]. intros s Hi. destruct (Hs s Hi) as (o' & Hn & Ho').
      exists o'. split; auto. rewrite Hd. injection Ho' as <-. rewrite Htt. reflexivity.
Qed.

Lemma rule_ok i bs c r ty : pops p i bs -> nth_error (gi_rules gi) i = Some r -> build_constructor (gi_rules gi) i = Ok c -> label_tokens d (pr_name r) ty ->
  rule_fits u em (p_types p) i bs c ty.
Proof.
  intros Hp Hr Hc Hty. destruct (main_types literal_ok gi p Hgen) as (Ht & _). destruct (Ht i bs Hp) as (r' & Hr' & Hv & _). rewrite Hr in Hr'. injection Hr' as <-.
  exists (fun b t => exists nd ty0, nth_error (pr_nodes r) (b_var b) = Some nd /\ argument_type u d nd ty0 /\ t = TyWritten ty0).
  split; [rewrite Hv; apply NoDup_rev, node_indices_nodup|]. split.
  - intros b Hb. destruct (bind_ok i bs b r Hp Hr Hb) as (nd & ty0 & H1 & H2 & H3). exists (TyWritten ty0). split; eauto.
  - split; [intros b t (nd & ty0 & _ & _ & ->); eauto|]. intros G G' (_ & HG).
    assert (Harg : forall k nd ty0, nth_error (pr_nodes r) k = Some nd -> argument_type u d nd ty0 -> type_of G' (bound_variable_ident k) = Some (TyWritten ty0)).
    { intros k nd ty0 Hk Ha. assert (Hi : In k (map b_var bs)).
      { rewrite Hv. apply -> in_rev. apply (node_indices_in _ 0 k nd Hk). intros ->. inversion Ha. }
      apply in_map_iff in Hi as (b & <- & Hb). destruct (HG b Hb) as (t & (nd' & ty1 & H1 & H2 & ->) & H3). rewrite Hk in H1. injection H1 as <-.
      rewrite (argument_unique _ _ _ Ha H2). exact H3. }
    assert (Hir : In r (d_rules d)) by (rewrite <- Hrules; eapply nth_error_In; eauto).
    unfold build_constructor, index in Hc. rewrite Hr in Hc. cbn [bind] in Hc. destruct (pr_block r) as [[dl ts]|] eqn:Hbl.
    + destruct (rewrite_total (pr_nodes r) dl ts) as [[-> _]|[_ He]]; [|rewrite Hc in He; discriminate].
      destruct c as [|j|body]; try (unfold rewrite_provided_constructor in Hc; cbn in Hc; destruct (substitute_vars _ _ _); discriminate Hc).
      apply rewrite_ok in Hc. cbn [ctor_fits]. rewrite (map_ext _ _ body_same). rewrite Hrules in Hr. eapply (uf_bodies _ _ Hfits); eauto.
    + destruct (pr_type r) as [own|] eqn:Hpt.
      * unfold generate_default_constructor in Hc. destruct (negb _) eqn:Hl; [discriminate Hc|]. injection Hc as <-.
        apply negb_false_iff, Nat.eqb_eq in Hl. destruct (pr_nodes r) as [|nd [|? ?]] eqn:Hns; try discriminate Hl. cbn [ctor_fits].
        assert (Hne : nd <> PNEpsilon) by (intros ->; apply (proj1 Hgen r own); auto; eapply nth_error_In; eauto).
        assert (Hi : In 0 (map b_var bs)) by (rewrite Hv; apply -> in_rev; apply (node_indices_in [nd] 0 0 nd); auto).
        apply in_map_iff in Hi as (b & Eb & Hb). destruct (bind_ok i bs b r Hp Hr Hb) as (nd' & ty0 & H1 & H2 & _).
        rewrite Hns, Eb in H1. injection H1 as <-. exists ty0. split; [apply (Harg 0 nd); auto|].
        eapply (uf_conversions _ _ Hfits); eauto.
      * injection Hc as <-. cbn [ctor_fits]. destruct (Hlabels r Hir) as (o & Ho & Hx). destruct Hty as (o' & Ho' & ->). rewrite Ho in Ho'. injection Ho' as <-.
        now rewrite (proj2 Hx Hpt).
Qed.

Lemma label_written o l : hm_get l (d_label_types d) = Some o -> exists ty, label_tokens d l ty /\ written o = TyWritten ty.
Proof. intros H. eexists. split; [exists o; split; [exact H|reflexivity]|]. reflexivity. Qed.

Lemma state_ok c : In c (p_states p) -> state_fits u em (p_types p) c.
Proof.
  intros Hc. pose proof (generated_nameable literal_ok gi p Hgen) as Hnm. destruct (main_types literal_ok gi p Hgen) as (Ht1 & Ht2 & Ht3).
  destruct (generated_setup literal_ok gi p Hgen) as (F & ks & acts & gts & Hsu & _ & _ & Hpo). specialize (Hpo bm p Hgen).
  pose proof Hc as Hc0. apply In_nth_error in Hc as (q & Hq). destruct (po_states _ _ _ _ _ Hpo) as (_ & Hst). pose proof (Hst q c Hq) as Hcode.
  assert (Hvoc : forall sy i, tok_rel (gi_grammar gi) sy i -> terminal_in (d_rules d) sy) by (rewrite <- Hrules; exact (su_voc _ _ _ _ _ Hsu)).
  destruct (nm_regular _ Hnm c Hc0) as [_ Hreg _].
  constructor.
  - intros [[m s] rhs] Hi. destruct (co_shift _ _ _ _ _ _ Hcode _ _ _ Hi) as (sy & i & pt & H1 & _ & H2 & -> & H3). rewrite Htt in H2, H3.
    pose proof (Hvoc _ _ H1) as Hin. assert (Hpf : pattern_fits u em pt) by (eapply (pattern_ok sy Named); [exact Hin|discriminate|exact H2]).
    split; [exact Hpf|]. split; [|].
    + rewrite (Ht2 s) by (exists c, (MSome pt), rhs; auto). now rewrite Htt.
    + pose proof (uf_terminals _ _ Hfits sy Hin) as Hf. unfold terminal_fits in Hf. unfold plain_token_type in Hplain. unfold try_build_pattern in H2, H3.
      destruct (d_terminal_type d) as [ty|ty] eqn:E.
      * destruct (as_literal literal_ok sy); try discriminate. cbn [bind] in *. injection H2 as <-. injection H3 as <-. exact Hpf.
      * unfold as_pattern, as_ident in *. destruct (string_is_identifier (sname sy)); try discriminate. cbn [bind] in *. injection H2 as <-. injection H3 as <-.
        destruct (sparen sy) as [pat| |]; [| |exact Hpf].
        -- destruct Hf as (f & Hv & Hcl & _). split; [exact Hplain|]. exists f. repeat split; auto. intros f' Hf'.
           assert (E' : Some f' = Some f) by (eapply in_fst_unique; [exact (uf_variants _ _ Hfits)|eassumption..]). congruence.
        -- destruct Hf as (f & Hv & Hcl). split; [exact Hplain|]. exists f. repeat split; auto. intros f' Hf'.
           assert (E' : Some f' = Some f) by (eapply in_fst_unique; [exact (uf_variants _ _ Hfits)|eassumption..]). congruence.
  - intros ms rc Hi. split; [exact (nm_ms _ Hnm c ms rc Hc0 Hi)|].
    destruct (co_reduce _ _ _ _ _ _ Hcode _ _ Hi) as (j & _ & [(ir & pr & fin & H1 & H2 & H3 & H4 & _ & _)] & Hms). split.
    + intros m Hm. split; [|eapply Hreg; eauto]. destruct (Hms m Hm) as (a & a' & Har & _ & Hma). rewrite Htt in Hma.
      eapply (matcher_ok _ Unnamed); [|discriminate|exact Hma]. intros sy ->. destruct a' as [i'| |]; cbn in Har; try contradiction. eapply Hvoc; eauto.
    + destruct (su_types _ _ _ _ _ Hsu pr) as (o & Ho); [eapply nth_error_In; eauto|]. rewrite Hget in Ho.
      destruct (label_written o _ Ho) as (ty & Hl & Hw). exists ty. split.
      * rewrite H3. apply rule_ok with (r := pr); auto. exists c. split; auto. left. exists ms, rc. auto.
      * assert (Hpush : forall from s, pushes_value p (r_rule rc) from s -> (exists o, nth_error (p_types p) s = Some o /\ written o = TyWritten ty) /\
          forall s0, In s0 from -> exists o, nth_error (p_types p) s0 = Some o).
        { intros from s Hv. destruct (Ht3 _ _ _ Hv) as (r & o' & Hr & Ho' & Hn & Hf). rewrite H3, H2 in Hr. injection Hr as <-. rewrite Hget, Ho in Ho'. injection Ho' as <-.
          split; [eauto|]. intros s0 H0. destruct (nth_error (p_types p) s0) eqn:E0; eauto. apply nth_error_None in E0. specialize (Hf s0 H0). lia. }
        unfold goto_fits. destruct (r_goto rc) as [s|arms] eqn:Hg.
        -- apply (Hpush []). exists c, ms, rc. rewrite Hg. auto.
        -- intros from s Hin. assert (Hv : pushes_value p (r_rule rc) from s) by (exists c, ms, rc; rewrite Hg; auto).
           destruct (Hpush _ _ Hv) as (A1 & A2). split; auto. split; auto. exact (nm_from _ Hnm c ms rc arms from s Hc0 Hi Hg Hin).
  - intros m a Ha. destruct (co_accept _ _ _ _ _ _ Hcode _ _ Ha) as (_ & -> & [(ir & pr & fin & H1 & H2 & H3 & H4 & H5 & _)]). split; [reflexivity|].
    rewrite H4. apply rule_ok with (r := pr); auto.
    + exists c. split; auto. right. exists MNone, a. auto.
    + pose proof H2 as H2'. rewrite Hrules in H2'. exists (pr_type pr). split; [auto|]. cbn [em_value emit]. unfold value_type.
      destruct (d_rules d) as [|r0 rs]; [discriminate H2'|]. injection H2' as ->. reflexivity.
  - intros ms Hm. destruct (co_check _ _ _ _ _ _ Hcode ms Hm) as (_ & toks & _ & Htk & Hf). split.
    + exact (nm_checks _ Hnm c ms Hc0 Hm).
    + intros m Hmi. destruct (Forall2_in_right _ _ _ _ Hf Hmi) as (sy & Hsy & H1). apply Htk in Hsy as (i & act & Hr & _). rewrite Htt in H1.
      eapply (matcher_ok _ Unnamed); [|discriminate|exact H1]. intros sy' E. injection E as <-. eapply Hvoc; eauto.
Qed.

Lemma enum_has s ty : nth_error (p_types p) s = Some ty -> In (enum_variant_name s, ty) (e_variants (em_enum em)).
Proof.
  intros H. cbn [em_enum emit emit_enum e_variants]. apply in_map_iff. exists (s, ty). split; [reflexivity|]. unfold enumerate.
  replace s with (0 + s) by reflexivity. generalize 0 as k. revert s H. generalize (p_types p) as l. induction l as [|x l IH]; intros [|s] H k; try discriminate H.
  - injection H as ->. left. now rewrite Nat.add_0_r.
  - right. rewrite Nat.add_succ_r. exact (IH s H (S k)).
Qed.

Lemma fns_em f : In f (em_fns em) -> exists s c, In c (p_states p) /\ s < List.length (p_states p) /\
  f = emit_function (d_name d) tok ety (em_value em) s c.
Proof. pose proof (fns_emitted gi p vis (d_name d) ety (Some (value_type (d_rules d))) f) as H. rewrite Htt in H. exact H. Qed.

Theorem main_typed : well_typed u em.
Proof.
  pose proof (generated_nameable literal_ok gi p Hgen) as Hnm. destruct (uf_token _ _ Hfits) as (Hcl & Hdb).
  assert (Herr : em_error em = match d_error_type d with Some ty => ty | None => no_error_type end) by (destruct (d_error_type d); reflexivity).
  assert (Hue : u_error u (em_error em)) by (rewrite Herr; apply (uf_error _ _ Hfits)).
  destruct (generated_setup literal_ok gi p Hgen) as (F & ks & acts & gts & Hsu & _ & _ & Hpo). specialize (Hpo bm p Hgen).
  destruct (names_distinct literal_ok gi p Hgen vis (d_name d) ety (Some (value_type (d_rules d)))) as (_ & Hv & Hf & _ & _). rewrite Htt in Hv, Hf.
  assert (Hst : forall s ty, nth_error (p_types p) s = Some ty -> constructs em (qualified_enum_variant_name (d_name d) s) [written ty] TyStates)
    by (intros s ty H; apply cs_state, enum_has, H).
  constructor; auto.
  - intros f x ty Hi H1 H2 H3. destruct (fns_em f Hi) as (s & c & _ & _ & ->). cbn [f_generics f_signature emit_function] in *.
    destruct (Hparams x H1) as (P1 & P2 & P3). rewrite <- Herr in P3.
    cbn [em_value em_error emit] in *. destruct H2 as [<-|[<-|[<-|[<-|[<-|[<-|[<-|[]]]]]]]]; auto.
    cbn [heads tree_heads Nat.leb app] in H3. destruct H3 as [<-|[]]. unfold enum_name in H1.
    repeat (destruct H1 as [H1|H1]; [apply (f_equal String.length) in H1; rewrite Proofs.TextLayout.length_app in H1; cbn in H1; lia|]). destruct H1.
  - intros f Hi. destruct (fns_em f Hi) as (s & c & _ & _ & ->). reflexivity.
  - intros f Hi. destruct (fns_em f Hi) as (s & c & Hc & _ & ->). cbn [f_param f_body emit_function].
    eapply actions_typed; eauto. exact (state_ok c Hc).
  - cbn [em_param em_body emit]. eapply loop_typed with (types := p_types p); eauto.
    + destruct (po_types _ _ _ _ _ Hpo) as (Hl & Hty). rewrite (po_root _ _ _ _ _ Hpo). pose proof (nm_root _ Hnm) as Hr. rewrite (po_root _ _ _ _ _ Hpo) in Hr.
      destruct (nth_error (p_types p) 0) as [ty|] eqn:E; [|apply nth_error_None in E; rewrite (nm_len _ Hnm) in E; lia]. now rewrite (proj1 (Hty 0 ty E) eq_refl).
    + symmetry. exact (nm_len _ Hnm).
    + intros v ty H. apply (in_map fst) in H. rewrite <- Htt, variant_names in H. apply in_map_iff in H as (s & E & Hs). cbn [fst] in E. subst v. apply in_seq in Hs. exists s. rewrite <- (nm_len _ Hnm). split; [lia|reflexivity].
    + intros s Hs. assert (Hi : In (state_action_function_name s) (map f_name (em_fns em))) by (rewrite <- Htt, function_names; apply in_map, in_seq; lia).
      apply in_map_iff in Hi as (f & E & Hi). eauto.
Qed.
End Main.

Section Macro.
Context {span : Type} (call_site : span) (join_spans : span -> span -> option span) (print : list ttree -> string).
Context (lex_error : string -> string) (literal_ok : string -> bool).
Notation token := (token span).

Theorem item_typed {bm : BuildMode} ho fuel ts vis em d u : orders_ok ho -> reads_as print (trees ts) d -> defaults_bound (d_rules d) ->
  sp_build_grammar span call_site join_spans print lex_error literal_ok ho fuel ts vis = Ok em ->
  user_part_fits u d -> single_patterns u d -> plain_token_type d -> parameters_unused d -> well_typed u em.
Proof.
  intros Ho Rd Db H Hfits Hs Hp Hq. destruct (expand_built _ _ _ _ _ _ _ _ _ _ Ho H) as (d' & p & P & Ne & B & ->).
  destruct (read_complete print _ _ Rd) as (d2 & P2 & Sm). rewrite P in P2. injection P2 as <-.
  destruct Sm as (En & Et & Ee & Er & El). rewrite <- En, <- Et, <- Ee, <- Er.
  destruct (macro_generated print literal_ok ho fuel _ p d Ho Rd Db B) as (gi & Hg).
  apply (main_typed literal_ok gi p u d Hg); auto.
  - intros r Hr. rewrite Er in Hr. destruct (read_types print _ _ _ P Hr) as (ty & E & Sa). exists ty. rewrite El. split; [exact E|].
    unfold same_type in Sa. destruct ty, (pr_type r); cbn in Sa; split; congruence.
  - intros r Hr. rewrite Er in Hr. rewrite El. destruct (d_rules d') as [|r0 rs] eqn:E; [discriminate Hr|]. injection Hr as ->. eapply first_type; eauto.
Qed.

Theorem macros_typed {bm : BuildMode} ho fuel ts em d u : orders_ok ho -> reads_as print (trees ts) d -> defaults_bound (d_rules d) ->
  grammar span call_site join_spans print lex_error literal_ok ho fuel ts = Ok (Item span em) \/
  pub_grammar span call_site join_spans print lex_error literal_ok ho fuel ts = Ok (Item span em) ->
  user_part_fits u d -> single_patterns u d -> plain_token_type d -> parameters_unused d -> well_typed u em.
Proof. intros Ho Rd Db H. apply macros_item in H as [vis H]. exact (item_typed ho fuel ts vis em d u Ho Rd Db H). Qed.
End Macro.

(** What typing says about patterns and variables. *)
Scheme mt_ind' := Minimality for matches_type Sort Prop
  with mts_ind' := Minimality for match_types Sort Prop.
Combined Scheme match_ind from mt_ind', mts_ind'.
Scheme ty_ind' := Minimality for typed Sort Prop
  with tall_ind' := Minimality for typed_all Sort Prop
  with tarms_ind' := Minimality for typed_arms Sort Prop.
Combined Scheme typing_ind from ty_ind', tall_ind', tarms_ind'.

Lemma binders_typed u em :
  (forall pl b p t bs, matches_type u em pl b p t bs -> forall x, In x (map fst bs) -> In x (binders p)) /\
  (forall pl b ps ts bs, match_types u em pl b ps ts bs -> forall x, In x (map fst bs) -> In x (flat_map binders ps)).
Proof.
  apply match_ind; intros; cbn [binders flat_map map] in *; auto; try contradiction.
  - destruct ps as [|p ps]; [congruence|]. apply in_flat_map. exists p. split; [now left|]. apply (H1 p); [now left|exact H2].
  - rewrite map_app, in_app_iff in *. destruct H3; auto.
Qed.

Lemma patterns_typed u em :
  (forall ret G e t, typed u em ret G e t -> forall p, In p (patterns e) -> exists t' bs, matches_type u em Owned ByMove p t' bs) /\
  (forall ret G es ts, typed_all u em ret G es ts -> forall p, In p (flat_map patterns es) -> exists t' bs, matches_type u em Owned ByMove p t' bs) /\
  (forall ret G t arms t', typed_arms u em ret G t arms t' ->
    forall p, In p (flat_map (fun a => fst a :: patterns (snd a)) arms) -> exists t' bs, matches_type u em Owned ByMove p t' bs).
Proof.
  apply typing_ind; intros; cbn [patterns flat_map fst snd app In] in *; rewrite ?in_app_iff, ?app_nil_r in *;
    try (match goal with H : _ \/ _ |- _ => destruct H end); auto; try contradiction.
  - destruct (H0 p H2); eauto.
  - subst. eauto.
  - match goal with H : _ \/ _ |- _ => destruct H end; auto.
Qed.

Lemma type_of_in G x t : type_of G x = Some t -> In x (map fst G).
Proof.
  induction G as [|[y t'] G IH]; cbn [type_of map fst]; [discriminate|]. destruct (String.eqb x y) eqn:E; [apply String.eqb_eq in E; subst; now left|right; auto].
Qed.

Lemma in_without x xs l : In x (without xs l) -> In x l /\ ~ In x xs.
Proof.
  unfold without. rewrite filter_In. intros (H & E). split; auto. intros Hi. apply negb_true_iff in E.
  assert (existsb (String.eqb x) xs = true) by (apply existsb_exists; exists x; split; auto; apply String.eqb_refl). congruence.
Qed.

Lemma variables_typed u em : (forall i ts G ty x, u_body u i ts (type_of G) ty -> In x (flat_map idents ts) -> In x (map fst G)) ->
  (forall ret G e t, typed u em ret G e t -> forall x, In x (free_vars e) -> In x (map fst G)) /\
  (forall ret G es ts, typed_all u em ret G es ts -> forall x, In x (flat_map free_vars es) -> In x (map fst G)) /\
  (forall ret G t arms t', typed_arms u em ret G t arms t' ->
    forall x, In x (flat_map (fun a => without (binders (fst a)) (free_vars (snd a))) arms) -> In x (map fst G)).
Proof.
  intros Hu. apply typing_ind; intros; cbn [free_vars flat_map fst snd app In map] in *; rewrite ?in_app_iff, ?app_nil_r in *;
    try (match goal with H : _ \/ _ |- _ => destruct H end); auto; try contradiction; subst; eauto using type_of_in.
  - match goal with H : In _ (without _ _) |- _ => apply in_without in H as (Ha & Hb) end.
    match goal with H : forall x, In x (free_vars body) -> _ |- _ => destruct (H _ Ha) as [->|]; auto end. exfalso. apply Hb. now left.
  - match goal with H : In _ (without _ _) |- _ => apply in_without in H as (Ha & Hb) end.
    match goal with H : forall x, In x (free_vars rest) -> _ |- _ => destruct (H _ Ha) as [->|]; auto end. exfalso. apply Hb. now left.
  - match goal with H : In _ (without _ _) |- _ => apply in_without in H as (Ha & Hb) end.
    match goal with H : forall x, In x (free_vars e) -> _ |- _ => specialize (H _ Ha); rewrite map_app, in_app_iff in H; destruct H as [H|]; auto end.
    exfalso. apply Hb. eapply (proj1 (binders_typed u em)); eauto.
Qed.
