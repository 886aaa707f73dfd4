(** Running emitted code does what Model/Runtime.v says. *)
From Coq Require Import Arith Bool String Ascii NArith List Lia.
From Verif Require Import Base.Prelude Spec.Grammar Spec.Values Spec.EmittedCode.
From Verif Require Import Model.IndexedGrammar Model.TokenTree Model.Terminal Model.Constructor Model.CodeGen Model.Runtime Model.Rust Model.Emit.
From Verif Require Model.TableText Spec.TableText Proofs.TextLayout.
From Verif Require Import Proofs.WP.
Import ListNotations.
Open Scope string_scope.
Open Scope list_scope.

(** ** Names *)
Lemma decimal_inj n m : TableText.decimal n = TableText.decimal m -> n = m.
Proof.
  intros H. destruct (TextLayout.decimal_numeral n) as (_ & _ & Hn & _). destruct (TextLayout.decimal_numeral m) as (_ & _ & Hm & _).
  congruence.
Qed.

Lemma append_cancel (a b c : string) : (a ++ b = a ++ c)%string -> b = c.
Proof. induction a; simpl; intros H; [exact H|]. inversion H. auto. Qed.

Lemma variant_inj n m : enum_variant_name n = enum_variant_name m -> n = m.
Proof. intros H. apply decimal_inj. exact (append_cancel "S" _ _ H). Qed.

Lemma function_inj n m : state_action_function_name n = state_action_function_name m -> n = m.
Proof. intros H. apply decimal_inj. exact (append_cancel "parse_s" _ _ H). Qed.

Lemma variable_inj n m : bound_variable_ident n = bound_variable_ident m -> n = m.
Proof. intros H. apply decimal_inj. exact (append_cancel "__v" _ _ H). Qed.

Lemma eqb_qualified g n m : eqb (qualified_enum_variant_name g n) (qualified_enum_variant_name g m) = (n =? m)%nat.
Proof.
  unfold eqb. destruct (eq_dec _ _) as [H|H]; destruct (Nat.eqb_spec n m) as [E|E]; try reflexivity.
  - exfalso. apply E, variant_inj. unfold qualified_enum_variant_name in H. congruence.
  - exfalso. apply H. now subst.
Qed.

Lemma eqb_name (n m : string) : eqb n m = String.eqb n m.
Proof. unfold eqb. destruct (eq_dec n m) as [H|H]; destruct (String.eqb_spec n m); congruence. Qed.

Lemma tree_refl : forall t, tree_eqb t t = true.
Proof.
  fix IH 1. intros [d ts|c s|n|n]; cbn [tree_eqb].
  - assert (H : eqb d d = true) by (unfold eqb; destruct (eq_dec d d); congruence). rewrite H. cbn [andb].
    induction ts as [|x ts IHts]; auto. rewrite IH. exact IHts.
  - unfold eqb. destruct (eq_dec c c), (eq_dec s s); auto; congruence.
  - apply String.eqb_refl.
  - apply String.eqb_refl.
Qed.
Lemma trees_refl ts : trees_eqb ts ts = true.
Proof. induction ts as [|x ts IH]; cbn [trees_eqb]; auto. rewrite tree_refl. exact IH. Qed.

#[local] Arguments qualified_enum_variant_name : simpl never.
#[local] Arguments bound_variable_ident : simpl never.
#[local] Arguments state_action_function_name : simpl never.
#[local] Arguments unique_prefixed_ident : simpl never.

Ltac paths := repeat match goal with |- context[@eqb path ?i ?a ?b] => let r := eval vm_compute in (@eqb path i a b) in
   match r with true => change (@eqb path i a b) with true | false => change (@eqb path i a b) with false end end.

(** Programs that the generator emits: checks are on tokens only, and only the
    patterns of shifts bind. *)
Definition binds_nothing (m : matcher) : bool :=
  match m with MSome (PBind _) | MSome (PBindPat _ _) => false | _ => true end.
Definition of_token (m : matcher) : bool := match m with MSome _ => true | MNone => false end.

Record regular_state (c : state_code) : Prop := mk_regular {
  rs_check : forall ms m, sc_check c = Some ms -> In m ms -> of_token m = true;
  rs_reduce : forall ms r m, In (ms, r) (sc_reduce c) -> In m ms -> binds_nothing m = true;
  rs_accept : forall m a, sc_accept c = Some (m, a) -> binds_nothing m = true;
}.
Definition regular (p : program) : Prop := forall c, In c (p_states p) -> regular_state c.

Section Run.
Context {bm : BuildMode} {E : Type} (R : rust) {SErr : Type}.
Variable into : SErr -> UErr R.
Variable input : nat -> option (tok R + SErr).
Notation rv := (rvalue (Raw R) (Pay R) (UVal R) (UErr R) SErr).
Variable bv : nat -> list ttree -> (string -> option rv) -> val R + UErr R.
Variable ty : list ttree.
Variable g : string.
Variable ety : error_type.
Hypothesis Hdesc : describes R SErr bv.
Hypothesis Hdep : depends_on_named R SErr bv.

Local Notation state_var := (unique_prefixed_ident "state").
Local Notation ev := (eval (E := E) R into input bv ty).
Local Notation pm := (pmatch R (SErr := SErr) ty).
Local Notation loc := (local R (SErr := SErr)).

Definition enc (s : nat * val R) : rv := VCon (qualified_enum_variant_name g (fst s)) [VVal (snd s)].
Definition mach (st : pstate (SErr := SErr) R) : option (machine R (SErr := SErr)) :=
  Some (mk_machine R (st_stream R st) (map enc (st_stack R st))).
Definition named (vars : env R) : locals R (SErr := SErr) := map (fun e => (bound_variable_ident (fst e), VVal (snd e))) vars.

(** [m'] does what [m] does, where a result is related by [Q]. *)
Definition sim {A B} (m : outcome E A) (m' : outcome E B) (Q : A -> outcome E B -> Prop) : Prop :=
  match m with
  | Ok a => Q a m'
  | Err e => m' = Err e
  | Panic _ => exists why, m' = Panic why
  | Diverge => m' = Diverge
  end.

Lemma sim_bind {A A' B} (m : outcome E A) (k : A -> outcome E A') (m' : outcome E B) Q :
  sim m m' (fun a m' => sim (k a) m' Q) -> sim (bind m k) m' Q.
Proof. destruct m; cbn [sim bind]; auto. Qed.

Lemma sim_conseq {A B} (m : outcome E A) (m' : outcome E B) (Q Q' : A -> outcome E B -> Prop) :
  sim m m' Q -> (forall a x, Q a x -> Q' a x) -> sim m m' Q'.
Proof. destruct m; cbn [sim]; auto. Qed.

Lemma local_app (e e' : locals R (SErr := SErr)) x :
  loc (e ++ e') x = match loc e x with Some v => Some v | None => loc e' x end.
Proof. induction e as [|[y v] e IH]; cbn [local app]; auto. destruct (String.eqb x y); auto. Qed.

Lemma local_named vars x : loc (named vars) x = arguments R SErr vars x.
Proof. induction vars as [|[i v] vars IH]; cbn; auto. destruct (String.eqb x _); auto. Qed.

Lemma named_other vars x : String.prefix "__v" x = false -> loc (named vars) x = None.
Proof.
  intros H. induction vars as [|[i v] vars IH]; cbn [named map local fst snd]; auto.
  destruct (String.eqb_spec x (bound_variable_ident i)) as [->|_]; auto.
  exfalso. revert H. unfold bound_variable_ident. cbn. destruct (TableText.decimal i); discriminate.
Qed.

Lemma named_state vars env : loc (named vars ++ env) state_var = loc env state_var.
Proof. rewrite local_app, named_other; auto. Qed.

Lemma andthen_assoc (m : result (E := E) (SErr := SErr) R) k k' :
  andthen R (andthen R m k) k' = andthen R m (fun st v => andthen R (k st v) k').
Proof. unfold andthen. destruct m as [[st [v|v]]| | |]; reflexivity. Qed.

Lemma andthen_val st (v : rv) (k : option (machine R (SErr := SErr)) -> rv -> result (E := E) (SErr := SErr) R) :
  andthen R (Ok (st, FVal R v)) k = k st v.
Proof. reflexivity. Qed.

(** ** Patterns *)
Definition bindings (b : option (Pay R)) : locals R (SErr := SErr) :=
  match b with Some f => [(wildcard_bound_variable, VVal (RPay f))] | None => [] end.

Lemma emit_pattern_ok p t : pm (emit_pattern ty p) (VVal (RTok t)) = option_map bindings (match_pat R p t).
Proof.
  destruct p, t as [n' [f|]|r]; cbn [emit_pattern pmatch match_pat]; rewrite ?eqb_name, ?trees_refl; cbn [andb]; auto;
    try (destruct (String.eqb _ _); cbn [andb option_map bindings]; auto; destruct (pat_matches R _ _); auto).
  destruct (Raw_dec R r _); auto.
Qed.

Definition opt_value (o : option (tok R)) : rv := match o with Some t => VCon ["Some"] [VVal (RTok t)] | None => VCon ["None"] [] end.

Lemma emit_matcher_ok m o : pm (emit_matcher ty m) (opt_value o) = option_map bindings (match_matcher R m o).
Proof.
  destruct m as [|p]; [destruct o; reflexivity|].
  assert (H : forall p', (forall t, pm p' (VVal (RTok t)) = pm (emit_pattern ty p) (VVal (RTok t))) ->
     pm (PtCon ["Some"] [p']) (opt_value o) = option_map bindings (match_matcher R (MSome p) o)).
  { intros p' H. destruct o as [t|]; [|reflexivity]. cbn [opt_value pmatch]. paths. rewrite H, emit_pattern_ok.
    cbn [match_matcher]. destruct (match_pat R p t); cbn [option_map]; auto. rewrite app_nil_r. reflexivity. }
  destruct p; apply H; reflexivity.
Qed.

Lemma matcher_binds m o b : binds_nothing m = true -> match_matcher R m o = Some b -> b = None.
Proof.
  destruct m as [|p], o as [t|]; cbn; try discriminate; [congruence|].
  destruct p, t as [n' [f|]|r]; cbn; try discriminate; intros _;
    repeat match goal with |- context[if ?c then _ else _] => destruct c end; congruence.
Qed.

Lemma any_ok ms o : (forall m, In m ms -> binds_nothing m = true) ->
  pm (PtOr (map (emit_matcher ty) ms)) (opt_value o) = if existsb (matches R o) ms then Some [] else None.
Proof.
  intros Hb. cbn [pmatch]. induction ms as [|m ms IH]; cbn [map existsb]; auto.
  rewrite emit_matcher_ok. unfold matches at 1. destruct (match_matcher R m o) as [b|] eqn:Hm; cbn [option_map orb].
  - rewrite (matcher_binds m o b); auto. apply Hb. now left.
  - apply IH. intros m' Hm'. apply Hb. now right.
Qed.

Lemma matches_count ms o : matches_any R (SErr := SErr) ty (map (emit_matcher ty) ms) (opt_value o) = count_matches R ms o.
Proof.
  unfold matches_any, count_matches. induction ms as [|m ms IH]; cbn [map filter]; auto.
  rewrite emit_matcher_ok. unfold matches at 1. destruct (match_matcher R m o); cbn [option_map List.length]; auto.
Qed.

(** ** Popping *)
Lemma pm_state a p s : pm (PtCon (qualified_enum_variant_name g a) [p]) (enc s) = if (a =? fst s)%nat then pm p (VVal (snd s)) else None.
Proof.
  unfold enc. cbn [pmatch]. rewrite eqb_qualified. destruct (a =? fst s)%nat; auto.
  destruct (pm p _); cbn [option_map]; auto. now rewrite app_nil_r.
Qed.

Lemma extract_ok fuel call env st b (k : option (machine R (SErr := SErr)) -> rv -> result (E := E) (SErr := SErr) R) s rest :
  loc env state_var = Some VState -> st_stack R st = s :: rest ->
  sim (extract (E := E) R b s) (andthen R (ev fuel call env (mach st) (emit_extract_state g ty b)) k)
    (fun v m' => m' = k (mach (mk_pstate R (st_stream R st) rest (st_log R st))) (VVal v)).
Proof.
  intros Hs Hstack. unfold emit_extract_state. cbn [eval]. rewrite Hs. cbn [expect bind andthen method mach m_stack].
  rewrite Hstack. cbn. destruct s as [q v]. unfold extract. cbn [fst snd].
  induction (b_arms b) as [|a arms IH]; cbn [map app].
  - destruct (in_dec Nat.eq_dec q []) as [[]|_]. cbn. eauto.
  - destruct (b_destruct b) as [n|] eqn:Hd; rewrite pm_state; cbn [fst snd].
    + destruct (Nat.eqb_spec a q) as [->|Hne].
      * destruct (in_dec Nat.eq_dec q (q :: arms)) as [_|Hn]; [|exfalso; apply Hn; now left].
        destruct v as [|[n' [f|]|r]|f|u]; cbn [pmatch].
        2: { rewrite trees_refl. cbn [andb]. revert IH. rewrite !eqb_name. destruct (String.eqb_spec n n'); intros IH.
             { cbn. reflexivity. }
             { destruct (in_dec Nat.eq_dec q arms); exact IH. } }
        all: try (destruct (trees_eqb ty ty && String.eqb n n')%bool); destruct (in_dec Nat.eq_dec q arms); exact IH.
      * destruct (in_dec Nat.eq_dec q (a :: arms)) as [[Hc|Hi]|Hn]; [congruence| |];
          (destruct (in_dec Nat.eq_dec q arms) as [Hi'|Hi']; [|try (exfalso; tauto)]; try exact IH; exfalso; apply Hn; now right).
    + destruct (Nat.eqb_spec a q) as [->|Hne].
      * destruct (in_dec Nat.eq_dec q (q :: arms)) as [_|Hn]; [|exfalso; apply Hn; now left]. cbn. reflexivity.
      * destruct (in_dec Nat.eq_dec q (a :: arms)) as [[Hc|Hi]|Hn]; [congruence| |];
          (destruct (in_dec Nat.eq_dec q arms) as [Hi'|Hi']; [|try (exfalso; tauto)]; try exact IH; exfalso; apply Hn; now right).
Qed.

Lemma binds_ok fuel call env rest bs : forall st vars,
  loc env state_var = Some VState ->
  sim (exec_binds (E := E) R bs st vars) (ev fuel call (named vars ++ env) (mach st) (emit_binds g ty bs rest))
    (fun r m' => m' = ev fuel call (named (snd r) ++ env) (mach (fst r)) rest).
Proof.
  induction bs as [|b bs IH]; intros st vars Hs; cbn [exec_binds emit_binds]; [reflexivity|].
  unfold pop_state. destruct (st_stack R st) as [|s stack] eqn:Hstack; cbn [bind sim].
  - cbn [eval emit_extract_state]. unfold emit_extract_state. cbn [eval].
    rewrite named_state, Hs. cbn [expect bind andthen method mach m_stack].
    rewrite Hstack. cbn. eauto.
  - cbn [eval]. apply sim_bind. eapply sim_conseq.
    { eapply extract_ok; [rewrite named_state; exact Hs|exact Hstack]. }
    intros v m' ->. change ((bound_variable_ident (b_var b), VVal v) :: named vars ++ env) with (named ((b_var b, v) :: vars) ++ env).
    apply IH. exact Hs.
Qed.

(** ** Constructors *)
Definition clean (c : ctor_code) : Prop :=
  forall body x t, c = CUser body -> In x internal_names -> In t (map body_text body) -> ~ mentions x t.

(** What is in scope in a state function. *)
Definition scope (peeked : rv) : locals R (SErr := SErr) := [(peeked_val_ident, peeked); (state_var, VState)].

Definition failed (e : UErr R) : rv := VCon ["Err"] [error_value (UserError R e)].

Lemma arguments_var i vars : arguments R SErr vars (argument_name i) = option_map VVal (var_lookup R i vars).
Proof.
  induction vars as [|[j v] vars IH]; cbn [arguments var_lookup]; auto.
  destruct (Nat.eqb_spec i j) as [->|Hne]; [now rewrite String.eqb_refl|].
  destruct (String.eqb_spec (argument_name i) (argument_name j)) as [H|_]; auto.
  exfalso. apply Hne, variable_inj, H.
Qed.

Lemma ctor_ok fuel call peeked rule c vars st (k : option (machine R (SErr := SErr)) -> rv -> result (E := E) (SErr := SErr) R) :
  clean c ->
  sim (eval_ctor (E := E) R rule c vars) (andthen R (ev fuel call (named vars ++ scope peeked) st (emit_constructor ety rule c)) k)
    (fun r m' => m' = match r with inl v => k st (VVal v) | inr e => Ok (st, FRet R (failed e)) end).
Proof.
  intros Hc. destruct c as [|i|body]; cbn [eval_ctor emit_constructor].
  - reflexivity.
  - cbn [eval]. rewrite local_app, local_named. change (bound_variable_ident i) with (argument_name i). rewrite arguments_var.
    destruct (var_lookup R i vars) as [v|]; cbn [option_map].
    + cbn [expect bind andthen]. destruct (default_ctor R rule v) as [r|e]; reflexivity.
    + change (local R (scope peeked) (argument_name i)) with (@None rv). cbn. eauto.
  - cbn [eval sim]. rewrite Hdesc. change (map emit_body body) with (map body_text body).
    rewrite (Hdep rule (map body_text body) (loc (named vars ++ scope peeked)) (arguments R SErr vars)).
    + destruct (bv rule _ _) as [v|e]; reflexivity.
    + intros x t Ht Hm. rewrite local_app, local_named. destruct (arguments R SErr vars x); auto.
      cbn [scope local]. destruct (String.eqb_spec x peeked_val_ident) as [->|_].
      { exfalso. eapply (Hc body); eauto. now left. }
      destruct (String.eqb_spec x state_var) as [->|_]; auto. exfalso. eapply (Hc body); eauto. right. now left.
Qed.

(** ** Reductions *)
Lemma scope_state vars peeked : loc (named vars ++ scope peeked) state_var = Some VState.
Proof. rewrite named_state. reflexivity. Qed.

Definition log_ctor (rule : nat) (vars : env R) (st : pstate (SErr := SErr) R) : pstate (SErr := SErr) R :=
  mk_pstate R (st_stream R st) (st_stack R st) (st_log R st ++ [(rule, vars)]).

Lemma any_state arms s : pm (match_any g arms) (enc s) = if in_dec Nat.eq_dec (fst s) arms then Some [] else None.
Proof.
  unfold match_any. cbn [pmatch]. induction arms as [|a arms IH]; cbn [map].
  - destruct (in_dec Nat.eq_dec (fst s) []) as [[]|]; auto.
  - unfold enum_matcher at 1. unfold enc at 1. cbn [pmatch]. rewrite eqb_qualified. destruct (Nat.eqb_spec a (fst s)) as [->|Hne].
    + destruct (in_dec Nat.eq_dec (fst s) (fst s :: arms)) as [|Hn]; auto. exfalso. apply Hn. now left.
    + rewrite IH. destruct (in_dec Nat.eq_dec (fst s) arms) as [Hi|Hi], (in_dec Nat.eq_dec (fst s) (a :: arms)) as [Hi'|Hi']; auto.
      * exfalso. apply Hi'. now right.
      * exfalso. destruct Hi' as [|]; congruence.
Qed.

(** What a state function returns. *)
Definition control_value (c : control R) : rv :=
  match c with
  | Continue _ => VCon ["Ok"] [VCon (p_control "Continue") []]
  | Accepted _ v => VCon ["Ok"] [VCon (p_control "Accept") [VVal v]]
  | Failed _ e => VCon ["Err"] [error_value e]
  end.
Definition returns (r : pstate (SErr := SErr) R * control R) (m' : result (E := E) (SErr := SErr) R) : Prop :=
  m' = Ok (mach (fst r), FRet R (control_value (snd r))).

Lemma goto_ok fuel call peeked rule c gt vars st : clean c ->
  sim ('(st, v) <- exec_ctor (E := E) R rule c vars st ;;
       match v with
       | inr e => Ok (st, Failed R (UserError R e))
       | inl v => st <- exec_goto R gt v st ;; Ok (st, Continue R)
       end)
    (ev fuel call (named vars ++ scope peeked) (mach st)
       (emit_goto g ety rule c gt (EReturn (ECon ["Ok"] [ECon (p_control "Continue") []]))))
    returns.
Proof.
  intros Hc. unfold exec_ctor. apply sim_bind, sim_bind. destruct gt as [next|arms]; cbn [emit_goto].
  - cbn [eval]. rewrite scope_state. cbn [expect bind andthen].
    rewrite !andthen_assoc. eapply sim_conseq; [apply (ctor_ok fuel call peeked rule c vars); exact Hc|].
    intros [v|e] m' ->; cbn; reflexivity.
  - cbn [eval]. eapply sim_conseq; [apply (ctor_ok fuel call peeked rule c vars); exact Hc|].
    intros [v|e] m' ->; [|reflexivity]. cbn [sim bind exec_goto].
    unfold state. cbn [st_stack]. destruct (st_stack R st) as [|s stack] eqn:Hst.
    { cbn [hd_error expect bind sim]. change (loc (("__constructed", VVal v) :: named vars ++ scope peeked) state_var) with (loc (named vars ++ scope peeked) state_var).
      rewrite scope_state. cbn [expect bind andthen method mach m_stack]. rewrite Hst. cbn. eauto. }
    cbn [hd_error expect bind].
    change (loc (("__constructed", VVal v) :: named vars ++ scope peeked) state_var) with (loc (named vars ++ scope peeked) state_var).
    rewrite scope_state. cbn [expect bind andthen method mach m_stack]. rewrite Hst. cbn [map hd_error].
    change (String.eqb "state" "stream" || String.eqb "state" "stream_mut")%bool with false. cbv iota.
    change (String.eqb "state" "state") with true. cbn [expect bind]. rewrite !andthen_val.
    induction arms as [|[from next] arms IH]; cbn [map app goto_arm].
    + cbn. eauto.
    + rewrite any_state. cbn [fst snd]. destruct (in_dec Nat.eq_dec (fst s) from) as [Hi|Hi]; [|exact IH].
      cbn [app eval]. change (loc (("__constructed", VVal v) :: named vars ++ scope peeked) state_var) with (loc (named vars ++ scope peeked) state_var).
      rewrite scope_state. cbn. unfold returns, mach. cbn. rewrite Hst. reflexivity.
Qed.

Lemma reduce_ok fuel call peeked r st : clean (r_ctor r) ->
  sim (exec_reduce (E := E) R r st)
    (ev fuel call (scope peeked) (mach st)
       (emit_binds g ty (r_binds r) (emit_goto g ety (r_rule r) (r_ctor r) (r_goto r) (EReturn (ECon ["Ok"] [ECon (p_control "Continue") []])))))
    returns.
Proof.
  intros Hc. unfold exec_reduce. apply sim_bind. eapply sim_conseq; [apply (binds_ok fuel call (scope peeked) _ (r_binds r) st []); reflexivity|].
  intros [st' vars] m' ->. apply goto_ok. exact Hc.
Qed.

Lemma accept_ok fuel call peeked a st : clean (a_ctor a) ->
  sim (exec_accept (E := E) R a st)
    (ev fuel call (scope peeked) (mach st)
       (emit_binds g ty (a_binds a)
         (ESeq (EMethod (EVar state_var) "verify_empty_stack" [])
           (EReturn (ECon ["Ok"] [ECon (p_control "Accept") [emit_constructor ety (a_rule a) (a_ctor a)]])))))
    returns.
Proof.
  intros Hc. unfold exec_accept. apply sim_bind. eapply sim_conseq; [apply (binds_ok fuel call (scope peeked) _ (a_binds a) st []); reflexivity|].
  intros [st' vars] m' ->. cbn [fst snd]. cbn [eval]. rewrite scope_state. cbn [expect bind andthen method mach m_stack].
  change (String.eqb "verify_empty_stack" "stream" || String.eqb "verify_empty_stack" "stream_mut")%bool with false.
  change (String.eqb "verify_empty_stack" "state") with false. change (String.eqb "verify_empty_stack" "pop_state") with false.
  change (String.eqb "verify_empty_stack" "verify_empty_stack") with true. cbv iota.
  unfold verify_empty_stack, debug_assert. rewrite map_length. destruct debug_assertions.
  - destruct (List.length (st_stack R st') =? 1)%nat; cbn [bind sim andthen]; [|eauto].
    unfold exec_ctor. apply sim_bind, sim_bind.
    rewrite !andthen_assoc. eapply sim_conseq; [apply (ctor_ok fuel call peeked _ _ vars); exact Hc|].
    intros [v|e] m' ->; cbn; reflexivity.
  - cbn [bind sim andthen]. unfold exec_ctor. apply sim_bind, sim_bind.
    rewrite !andthen_assoc. eapply sim_conseq; [apply (ctor_ok fuel call peeked _ _ vars); exact Hc|].
    intros [v|e] m' ->; cbn; reflexivity.
Qed.

(** ** The match on the token *)
Definition arms_eval fuel call env (st : option (machine R (SErr := SErr))) (v : rv) : list (rpat * expr) -> result (E := E) (SErr := SErr) R :=
  fix try arms :=
    match arms with
    | [] => Panic "does not compile: a match that is not exhaustive"
    | (p, body) :: arms => match pm p v with Some bs => ev fuel call (bs ++ env) st body | None => try arms end
    end.

Lemma eval_match fuel call env st e arms :
  ev fuel call env st (EMatch e arms) = andthen R (ev fuel call env st e) (fun st v => arms_eval fuel call env st v arms).
Proof. reflexivity. Qed.

Definition others (c : state_code) : list (rpat * expr) :=
  map (emit_reduce_arm g ty ety) (sc_reduce c) ++
  match sc_accept c with Some a => [emit_accept_arm g ty ety a] | None => [] end ++ emit_return_err.

Definition clean_state (c : state_code) : Prop :=
  (forall ms r, In (ms, r) (sc_reduce c) -> clean (r_ctor r)) /\
  (forall m a, sc_accept c = Some (m, a) -> clean (a_ctor a)).

Lemma others_ok fuel call c o st : regular_state c -> clean_state c ->
  sim (match find_reduce R (sc_reduce c) o with
       | Some r => exec_reduce (E := E) R r st
       | None =>
           match sc_accept c with
           | Some (m, a) => if matches R o m then exec_accept R a st else Ok (st, Failed R (ParseError R o))
           | None => Ok (st, Failed R (ParseError R o))
           end
       end)
    (arms_eval fuel call (scope (opt_value o)) (mach st) (opt_value o) (others c)) returns.
Proof.
  intros [_ Hr Ha] [Hcr Hca]. unfold others. induction (sc_reduce c) as [|[ms r] reds IH]; cbn [map app find_reduce].
  - assert (He : sim (Ok (st, Failed R (ParseError R o))) (arms_eval fuel call (scope (opt_value o)) (mach st) (opt_value o) emit_return_err) returns)
      by (destruct o as [t|]; reflexivity).
    destruct (sc_accept c) as [[m a]|]; [|exact He]. cbn [app arms_eval emit_accept_arm]. rewrite emit_matcher_ok. unfold matches.
    destruct (match_matcher R m o) as [b|] eqn:Hm; cbn [option_map]; [|exact He].
    rewrite (matcher_binds m o b (Ha _ _ eq_refl) Hm). cbn [bindings app]. apply accept_ok. eapply Hca. reflexivity.
  - cbn [arms_eval emit_reduce_arm]. rewrite any_ok by (intros m Hm; eapply Hr; [now left|exact Hm]).
    destruct (existsb (matches R o) ms).
    + cbn [app]. apply reduce_ok. eapply Hcr. now left.
    + apply IH; intros; [eapply Hr|eapply Hcr]; try (right; eassumption); eassumption.
Qed.

Definition finishes (r : pstate (SErr := SErr) R * control R) (m' : result (E := E) (SErr := SErr) R) : Prop :=
  returned R m' = Ok (mach (fst r), FVal R (control_value (snd r))).

Lemma returns_finishes r m' : returns r m' -> finishes r m'.
Proof. intros ->. reflexivity. Qed.

Lemma sim_returned m m' k : sim m m' returns -> sim m (andthen R m' k) finishes.
Proof.
  destruct m as [r| | |]; cbn [sim].
  - intros ->. reflexivity.
  - intros ->. reflexivity.
  - intros [w ->]. cbn. eauto.
  - intros ->. reflexivity.
Qed.

(** The token that is pushed. *)
Lemma token_ok fuel call b peeked st rhs (k : option (machine R (SErr := SErr)) -> rv -> result (E := E) (SErr := SErr) R) :
  sim (eval_rhs (E := E) R rhs b) (andthen R (ev fuel call (bindings b ++ scope peeked) st (emit_token ty rhs)) k)
    (fun t m' => m' = k st (VVal (RTok t))).
Proof.
  destruct rhs; [..|destruct b as [f|]]; try (cbn; rewrite ?trees_refl; try reflexivity; eauto; fail).
  cbn [bindings app emit_token eval eval_rhs sim]. change (loc (scope peeked) wildcard_bound_variable) with (@None rv). cbn. eauto.
Qed.

Definition after_shift : expr :=
  ESeq (EMethod (EMethod (EVar state_var) "stream_mut" []) "advance" [])
    (ESeq (EMethod (EVar state_var) "push" [EVar "next_state"]) (ECon ["Ok"] [ECon (p_control "Continue") []])).

Lemma after_ok fuel call peeked q t st :
  sim (s <- advance (E := E) R input (st_stream R st) ;; Ok (push R (q, RTok t) (mk_pstate R s (st_stack R st) (st_log R st)), Continue R))
    (ev fuel call (("next_state", enc (q, RTok t)) :: scope peeked) (mach st) after_shift) finishes.
Proof.
  unfold after_shift. cbn [eval].
  change (loc (("next_state", enc (q, RTok t)) :: scope peeked) state_var) with (Some (VState : rv)).
  cbn. unfold advance, debug_assert. destruct debug_assertions; destruct (s_next R (st_stream R st)); cbn; eauto; reflexivity.
Qed.

Lemma shifts_ok fuel call c o st shifts : regular_state c -> clean_state c ->
  sim (match find_shift R shifts o with
       | Some (next, rhs, bound) =>
           t <- eval_rhs (E := E) R rhs bound ;;
           s <- advance R input (st_stream R st) ;;
           Ok (push R (next, RTok t) (mk_pstate R s (st_stack R st) (st_log R st)), Continue R)
       | None =>
           match find_reduce R (sc_reduce c) o with
           | Some r => exec_reduce R r st
           | None =>
               match sc_accept c with
               | Some (m, a) => if matches R o m then exec_accept R a st else Ok (st, Failed R (ParseError R o))
               | None => Ok (st, Failed R (ParseError R o))
               end
           end
       end)
    (andthen R (arms_eval fuel call (scope (opt_value o)) (mach st) (opt_value o) (map (emit_shift_arm g ty) shifts ++ others c))
       (fun st v => ev fuel call (("next_state", v) :: scope (opt_value o)) st after_shift)) finishes.
Proof.
  intros Hr Hc. induction shifts as [|[[m next] rhs] shifts IH]; cbn [map app find_shift].
  - apply sim_returned. apply others_ok; assumption.
  - cbn [emit_shift_arm arms_eval]. rewrite emit_matcher_ok. destruct (match_matcher R m o) as [b|]; cbn [option_map]; [|exact IH].
    apply sim_bind. cbn [eval]. rewrite andthen_assoc. eapply sim_conseq; [apply token_ok|].
    intros t m' ->. rewrite andthen_val. apply (after_ok fuel call (opt_value o) next t st).
Qed.

Lemma match_ok fuel call c o st : regular_state c -> clean_state c ->
  sim (exec_match (E := E) R input c o st)
    (ev fuel call (scope (opt_value o)) (mach st)
      (match sc_shift c with
       | [] => EMatch (EVar peeked_val_ident) (others c)
       | shifts => ELet "next_state" (EMatch (EVar peeked_val_ident) (map (emit_shift_arm g ty) shifts ++ others c)) after_shift
       end)) finishes.
Proof.
  intros Hr Hc. unfold exec_match. destruct (sc_shift c) as [|a shifts].
  - cbn [find_shift]. eapply sim_conseq; [apply others_ok; assumption|]. intros r m' Hm. apply returns_finishes. exact Hm.
  - pose proof (shifts_ok fuel call c o st (a :: shifts) Hr Hc) as H.
    exact H.
Qed.

Lemma check_ok fuel call c t st rest :
  sim (exec_match (E := E) R input c (Some t) st) (ev fuel call (scope (opt_value (Some t))) (mach st) rest) finishes ->
  sim (match sc_check c with
       | Some ms =>
           if debug_assertions && (1 <? count_matches R ms (Some t))%nat then Ok (st, Failed R (OverlappingTokenMatchers R t))
           else exec_match (E := E) R input c (Some t) st
       | None => exec_match R input c (Some t) st
       end) (ev fuel call (scope (opt_value (Some t))) (mach st) (emit_check ty (sc_check c) rest)) finishes.
Proof.
  intros H. destruct (sc_check c) as [ms|]; [|exact H]. cbn [emit_check eval].
  destruct debug_assertions; [|exact H]. cbn [andb].
  change (loc (scope (opt_value (Some t))) peeked_val_ident) with (Some (opt_value (Some t))). cbn [expect bind].
  rewrite !andthen_val, matches_count. cbn [local String.eqb].
  destruct (1 <? count_matches R ms (Some t))%nat eqn:Hn.
  - cbn -[Nat.ltb]. rewrite Hn. reflexivity.
  - cbn -[Nat.ltb]. rewrite Hn. cbn. exact H.
Qed.

(** ** State functions *)
Lemma check_end fuel call c st rest : regular_state c ->
  ev fuel call (scope (opt_value None)) (mach st) (emit_check ty (sc_check c) rest) = ev fuel call (scope (opt_value None)) (mach st) rest.
Proof.
  intros [Hck _ _]. destruct (sc_check c) as [ms|]; [|reflexivity]. cbn [emit_check eval]. destruct debug_assertions; [|reflexivity].
  change (loc (scope (opt_value None)) peeked_val_ident) with (Some (opt_value None)). cbn [expect bind].
  rewrite !andthen_val, matches_count.
  assert (H0 : count_matches R ms None = 0).
  { specialize (Hck ms). unfold count_matches. clear - Hck. induction ms as [|m ms IH]; auto. cbn [filter].
    assert (Hm : of_token m = true) by (apply Hck; [reflexivity|now left]). destruct m; [discriminate|].
    cbn [matches match_matcher]. unfold matches at 1. cbn [match_matcher]. apply IH. intros m' _ Hi. apply Hck; [reflexivity|now right]. }
  rewrite H0. reflexivity.
Qed.

Lemma state_ok fuel call c st : regular_state c -> clean_state c ->
  sim (exec_state (E := E) R into input c st)
    (ev fuel call [(state_var, VState)] (mach st) (emit_actions g ty ety c)) finishes.
Proof.
  intros Hr Hc. unfold exec_state, emit_actions. fold (others c). fold after_shift.
  set (rest := match sc_shift c with [] => _ | _ => _ end). cbn [eval emit_peek_next].
  unfold emit_peek_next. cbn [eval]. change (loc [(state_var, VState)] state_var) with (Some (VState : rv)).
  cbn [expect bind]. rewrite !andthen_val.
  destruct (peek_next R (st_stream R st)) as [[t|e]|] eqn:Hp; cbn [method mach]; cbn; rewrite Hp; cbn.
  - apply check_ok. apply match_ok; assumption.
  - reflexivity.
  - change (sim (exec_match (E := E) R input c None st) (ev fuel call (scope (opt_value None)) (mach st) (emit_check ty (sc_check c) rest)) finishes).
    rewrite check_end by assumption. apply match_ok; assumption.
Qed.

(** ** The loop *)
Section Program.
Variable p : program.
Variable result_type : list ttree.
Hypothesis Hreg : regular p.
Hypothesis Hclean : forall c, In c (p_states p) -> clean_state c.

Definition fns : list fn_item := map (fun e => emit_function g ty ety result_type (fst e) (snd e)) (enumerate (p_states p)).

Lemma find_fn (l : list state_code) q : forall n,
  find (fun f => String.eqb (f_name f) (state_action_function_name (n + q)))
    (map (fun e => emit_function g ty ety result_type (fst e) (snd e)) (combine (seq n (List.length l)) l)) =
  option_map (emit_function g ty ety result_type (n + q)) (nth_error l q).
Proof.
  revert q. induction l as [|c l IH]; intros q n; [destruct q; reflexivity|]. cbn [List.length seq combine map find fst snd emit_function f_name].
  destruct q as [|q]; cbn [nth_error option_map].
  - rewrite Nat.add_0_r, String.eqb_refl. reflexivity.
  - destruct (String.eqb_spec (state_action_function_name n) (state_action_function_name (n + S q))) as [H|_].
    { apply function_inj in H. lia. }
    replace (n + S q) with (S n + q) by lia. apply IH.
Qed.

Local Notation call := (call_fn (E := E) R into input bv ty fns).

Lemma call_ok q c st : nth_error (p_states p) q = Some c ->
  sim (exec_state (E := E) R into input c st) (call (state_action_function_name q) (mach st))
    (fun r m' => m' = Ok (mach (fst r), FVal R (control_value (snd r)))).
Proof.
  intros Hq. unfold call_fn, fns, enumerate. pose proof (find_fn (p_states p) q 0) as Hf. cbn [Nat.add] in Hf. rewrite Hf, Hq.
  cbn [option_map f_param f_body emit_function].
  pose proof (state_ok 0 (no_call R) c st (Hreg c (nth_error_In _ _ Hq)) (Hclean c (nth_error_In _ _ Hq))) as H. revert H.
  destruct (exec_state R into input c st) as [r| | |]; cbn [sim].
  - intros H. exact H.
  - intros ->. reflexivity.
  - intros [w ->]. cbn. eauto.
  - intros ->. reflexivity.
Qed.

Definition body_env : locals R (SErr := SErr) := [("state", VState); (unique_prefixed_ident "input_stream", VInput)].

Definition loop_body : expr :=
  ELet "action"
    (ETry (EMatch (EMethod (EVar "state") "state" [])
       (map (fun s => (enum_matcher g s, ECall [state_action_function_name s] [ERefMut (EVar "state")])) (seq 0 (List.length (p_states p))))))
    (EMatch (EVar "action")
       [(PtCon (p_control "Accept") [PtVar "result"], EReturn (ECon ["Ok"] [EVar "result"]));
        (PtCon (p_control "Continue") [], EUnit)]).

Lemma dispatch fuel st s n : forall k, k + n = List.length (p_states p) ->
  arms_eval fuel call body_env (mach st) (enc s)
    (map (fun s => (enum_matcher g s, ECall [state_action_function_name s] [ERefMut (EVar "state")])) (seq k n)) =
  (if (k <=? fst s) && (fst s <? k + n) then call (state_action_function_name (fst s)) (mach st)
   else Panic "does not compile: a match that is not exhaustive")%nat.
Proof.
  induction n as [|n IH]; intros k Hk; cbn [seq map arms_eval].
  - destruct (Nat.leb_spec k (fst s)), (Nat.ltb_spec (fst s) (k + 0)); cbn [andb]; auto. lia.
  - unfold enum_matcher at 1. unfold enc at 1. cbn [pmatch]. rewrite eqb_qualified. destruct (Nat.eqb_spec k (fst s)) as [<-|Hne].
    + destruct (Nat.leb_spec k k), (Nat.ltb_spec k (k + S n)); try lia. cbn [andb]. reflexivity.
    + rewrite IH by lia. destruct (Nat.leb_spec (S k) (fst s)), (Nat.leb_spec k (fst s)), (Nat.ltb_spec (fst s) (S k + n)), (Nat.ltb_spec (fst s) (k + S n));
        try lia; reflexivity.
Qed.

Definition round (r : pstate (SErr := SErr) R + pstate (SErr := SErr) R * (val R + parser_error R)) : option (machine R (SErr := SErr)) * flow R (SErr := SErr) :=
  match r with
  | inl st => (mach st, FVal R (unit_value R))
  | inr (st, res) => (mach st, FRet R (result_value res))
  end.

Lemma round_ok fuel st :
  sim (loop_step (E := E) R into input p st) (ev fuel call body_env (mach st) loop_body)
    (fun r m' => m' = Ok (round r)).
Proof.
  unfold loop_step, state, loop_body. cbn [eval]. change (loc body_env "state") with (Some (VState : rv)). cbn [expect bind].
  rewrite andthen_val. destruct (st_stack R st) as [|s stack] eqn:Hst.
  { cbn [hd_error expect bind sim method mach m_stack]. rewrite Hst. cbn. eauto. }
  cbn [hd_error expect bind]. rewrite !andthen_assoc.
  change (method R into input "state" VState [] (mach st)) with
    (s <- expect (hd_error (map enc (st_stack R st))) "undefined behaviour: state() on an empty stack" ;; Ok (mach st, FVal R s) : result (E := E) (SErr := SErr) R).
  rewrite Hst. cbn [map hd_error expect bind]. rewrite andthen_val.
  match goal with |- sim _ (andthen R ?m _) _ => change m with (arms_eval fuel call body_env (mach st) (enc s)
    (map (fun s => (enum_matcher g s, ECall [state_action_function_name s] [ERefMut (EVar "state")])) (seq 0 (List.length (p_states p))))) end.
  rewrite dispatch by reflexivity. cbn [Nat.leb Nat.add andb]. unfold index. destruct (Nat.ltb_spec (fst s) (List.length (p_states p))) as [Hlt|Hge].
  - destruct (nth_error (p_states p) (fst s)) as [c|] eqn:Hc; [|apply nth_error_None in Hc; lia]. cbn [bind]. apply sim_bind.
    pose proof (call_ok (fst s) c st Hc) as H. revert H. destruct (exec_state R into input c st) as [[st' ctl]| | |]; cbn [sim].
    + intros ->. destruct ctl as [|v|e]; try reflexivity. destruct e as [[t|]|t|e]; reflexivity.
    + intros ->. reflexivity.
    + intros [w ->]. cbn. eauto.
    + intros ->. reflexivity.
  - rewrite (proj2 (nth_error_None _ _) Hge). cbn. eauto.
Qed.

Lemma loop_ok fuel : forall n st,
  sim (while_loop n (loop_step (E := E) R into input p) st)
    (while_loop n (fun st =>
        '(st, f) <- ev fuel call body_env st loop_body ;;
        match f with FVal _ _ => Ok (inl st) | FRet _ v => Ok (inr (st, v)) end) (mach st))
    (fun r m' => m' = Ok (mach (fst r), result_value (snd r))).
Proof.
  induction n as [|n IH]; intros st; [reflexivity|]. cbn [while_loop]. apply sim_bind.
  pose proof (round_ok fuel st) as H. revert H. destruct (loop_step R into input p st) as [[st'|[st' r]]| | |]; cbn [sim].
  - intros ->. cbn [round bind]. apply IH.
  - intros ->. reflexivity.
  - intros ->. reflexivity.
  - intros [w ->]. cbn. eauto.
  - intros ->. reflexivity.
Qed.

Lemma body_ok fuel :
  same_run (parse_fallible (E := E) R into input fuel p)
    (returned R (ev fuel call [(unique_prefixed_ident "input_stream", VInput)] None (emit_parse_loop g (List.length (p_states p)) (p_root p)))).
Proof.
  unfold parse_fallible, emit_parse_loop. cbn [eval].
  change (loc [(unique_prefixed_ident "input_stream", VInput)] (unique_prefixed_ident "input_stream")) with (Some (VInput : rv)).
  cbn [expect bind]. rewrite !andthen_assoc, !andthen_val. cbn [method String.eqb Ascii.eqb Bool.eqb orb andthen bind].
  pose proof (loop_ok fuel fuel (state_new R input (p_root p, RUnit))) as H. revert H.
  set (w := while_loop fuel (loop_step R into input p) (state_new R input (p_root p, RUnit))).
  intros H. cbn [function]. paths.
  match goal with |- same_run _ (returned R ?m) => change m with
    ('(st, v) <- while_loop fuel (fun st =>
        '(st, f) <- ev fuel call body_env st loop_body ;;
        match f with FVal _ _ => Ok (inl st) | FRet _ v => Ok (inr (st, v)) end) (mach (state_new R input (p_root p, RUnit))) ;;
     Ok (st, FRet R v) : result (E := E) (SErr := SErr) R) end.
  revert H. destruct w as [[st r]| | |]; cbn [sim same_run].
  - intros ->. cbn. eexists. reflexivity.
  - intros ->. reflexivity.
  - intros [y ->]. cbn. eauto.
  - intros ->. reflexivity.
Qed.

End Program.
End Run.
