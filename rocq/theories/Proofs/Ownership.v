(** Emitted code follows the rules of ownership. *)
From Coq Require Import Arith Bool String Ascii NArith List Lia.
From Verif Require Import Base.Prelude Spec.Grammar Spec.Values Spec.Substitution Spec.EmittedCode Spec.EmittedNames Spec.Macro Spec.Diagnostics Spec.Expansion Spec.Typing Spec.Ownership.
From Verif Require Import Model.IndexedGrammar Model.LRTable Model.TokenTree Model.Terminal Model.Constructor Model.CodeGen Model.Symbol Model.FrontEnd Model.Runtime Model.Rust Model.Emit Model.Diagnostics Model.Expand.
From Verif Require Model.TableText.
From Verif Require Import Proofs.WP Proofs.TableBuild Proofs.IndexedMain Proofs.StateMapFinal Proofs.GenCode Proofs.GenMain Proofs.EmitRun Proofs.EmitMain Proofs.EmitNames Proofs.Macro Proofs.MacroMain Proofs.Diagnostics Proofs.ExpandMain Proofs.Typing.
Import ListNotations.
Open Scope string_scope.
Open Scope list_scope.

#[local] Arguments qualified_enum_variant_name : simpl never.
#[local] Arguments bound_variable_ident : simpl never.
#[local] Arguments state_action_function_name : simpl never.
#[local] Arguments unique_prefixed_ident : simpl never.

Lemma without_in x xs l : In x l -> ~ In x xs -> In x (without xs l).
Proof.
  intros H1 H2. unfold without. apply filter_In. split; auto. apply negb_true_iff. destruct (existsb (String.eqb x) xs) eqn:E; auto.
  apply existsb_exists in E as (y & Hy & Ey). apply String.eqb_eq in Ey. subst. contradiction.
Qed.

Section Code.
Variable u : user_code.
Variable em : emitted.
Variable g : string.
Variable ety : error_type.
Variable types : list (option (list ttree)).
Local Notation tok := (em_token em).
Local Notation token := (TyWritten (em_token em)).
Local Notation value := (TyWritten (em_value em)).
Local Notation state_var := (unique_prefixed_ident "state").
Local Notation typed := (typed u em).
Local Notation owns := (owns u em).
Local Notation constructs := (constructs em).
Local Notation matches_type := (matches_type u em).
Local Notation fn_result := (control_result em).
Local Notation peeked := (TyOption (TyRef false token)).
Local Notation is_fn_context G := (type_of G state_var = Some (TyRef true TyParserState)).

Hypothesis Herr : em_error em = error_type_tokens ety.
Hypothesis Hue : u_error u (em_error em).
Hypothesis Hclone : u_clone u tok.
Hypothesis Hdebug : u_debug u tok.
Hypothesis Hst : forall s ty, nth_error types s = Some ty -> constructs (qualified_enum_variant_name g s) [written ty] TyStates.

Lemma owns_one ret G held live e t : owns ret G held live e -> typed ret G e t -> owns_all u em ret G held live [e].
Proof. intros H1 H2. econstructor; [cbn [flat_map]; rewrite app_nil_r; exact H1|exact H2|constructor]. Qed.

Lemma owns_each ret G held live t arms :
  (forall p e, In (p, e) arms -> exists bs t', matches_type Owned ByMove p t bs /\ (forall x, In x (binders p) -> In x live -> type_of G x = None) /\
    owns ret (bs ++ G) held (without (binders p) live) e /\ typed ret (bs ++ G) e t' /\ not_dangling t t') ->
  owns_arms u em ret G held live t arms.
Proof.
  induction arms as [|[p e] arms IH]; intros H; [constructor|]. destruct (H p e (or_introl eq_refl)) as (bs & t' & H1 & H2 & H3 & H4 & H5).
  econstructor; eauto. apply IH. intros; apply H; now right.
Qed.

(** Variables where rules are reduced: the parser state, the peeked token, and
    values. *)
Definition inside (G : context) : Prop :=
  forall y t, type_of G y = Some t -> y = state_var \/ y = peeked_val_ident \/
    (y = "__constructed" \/ exists i, y = bound_variable_ident i) /\ exists ty, t = TyWritten ty.

(** Only the parser state is used afterwards. *)
Definition only (live : list string) : Prop := forall y, In y live -> y = state_var.

Lemma only_without xs live : only live -> only (without xs live).
Proof. intros H y Hy. apply in_without in Hy as (Hy & _). auto. Qed.

Lemma inside_writable G live : inside G -> ~ In peeked_val_ident live -> writable G NoLoan live state_var.
Proof.
  intros HG Hp. split; auto. intros y t Hy Hne Ht. destruct (HG y t Ht) as [->|[->|(_ & ty & ->)]]; [congruence|contradiction|reflexivity].
Qed.

Lemma inside_not G x : inside G -> x <> state_var -> x <> peeked_val_ident -> x <> "__constructed" -> (forall i, x <> bound_variable_ident i) -> type_of G x = None.
Proof.
  intros HG H1 H2 H3 H4. destruct (type_of G x) as [t|] eqn:E; auto. destruct (HG x t E) as [H|[H|([H|(i & H)] & _)]]; try contradiction. destruct (H4 i H).
Qed.

Lemma inside_cons G x ty : inside G -> x = "__constructed" \/ (exists i, x = bound_variable_ident i) -> inside ((x, TyWritten ty) :: G).
Proof.
  intros HG Hx y t. cbn [type_of]. destruct (String.eqb_spec y x) as [->|_]; [|apply HG]. intros E. injection E as <-. right. right. eauto.
Qed.

(** Constructors do not name the variables of the emitted code. *)
Definition clean (c : ctor_code) : Prop :=
  forall body x, c = CUser body -> In x (flat_map idents (map emit_body body)) -> x <> state_var /\ x <> peeked_val_ident.

Lemma clean_free i c : clean c -> ~ In peeked_val_ident (free_vars (emit_constructor ety i c)) /\ ~ In state_var (free_vars (emit_constructor ety i c)).
Proof.
  destruct c as [|j|body]; cbn [emit_constructor free_vars flat_map]; intros H.
  - split; intros [].
  - split; intros [E|[]]; revert E; unfold bound_variable_ident; discriminate.
  - rewrite app_nil_r. split; intros Hi; destruct (H body _ eq_refl Hi); congruence.
Qed.

Lemma owns_ctor ret G held live i c ty : only live -> inside G -> clean c -> ctor_fits u i c G ty -> owns ret G held live (emit_constructor ety i c).
Proof.
  intros HL HG Hc Hf. destruct c as [|j|body]; cbn [emit_constructor ctor_fits] in *.
  - constructor.
  - destruct Hf as (ty0 & Hx & _). apply ow_try, ow_map_err, ow_try_into. eapply ow_var; [exact Hx|]. right. split; [|discriminate].
    intros Hi. apply HL in Hi. symmetry in Hi. now apply state_not_bound in Hi.
  - apply ow_try. apply ow_closure with (t := TyWritten ty). apply ow_con. eapply owns_one; [|apply ty_user; exact Hf]. apply ow_user. intros x t Hx Ht.
    destruct (Hc body x eq_refl Hx) as (H1 & H2). right. destruct (HG x t Ht) as [H|[H|(_ & ty' & ->)]]; try contradiction.
    split; [|discriminate]. intros Hi. apply HL in Hi. contradiction.
Qed.

(** Popping. *)
Lemma extract_free b : free_vars (emit_extract_state g tok b) = [state_var].
Proof.
  unfold emit_extract_state. cbn [free_vars flat_map app]. f_equal. rewrite flat_map_app. cbn [flat_map fst snd binders free_vars app without filter].
  rewrite app_nil_r. induction (b_arms b) as [|s arms IH]; [reflexivity|]. cbn [map flat_map fst snd]. rewrite IH, app_nil_r. now destruct (b_destruct b).
Qed.

Lemma owns_extract ret G live b ty : is_fn_context G -> inside G -> ~ In peeked_val_ident live -> popped u em types b (TyWritten ty) ->
  owns ret G NoLoan live (emit_extract_state g tok b).
Proof.
  intros Hs HG Hp Hpo. pose proof (extract_free b) as Hfv. unfold emit_extract_state in *. cbn [free_vars flat_map app] in Hfv. injection Hfv as Hfv.
  assert (Ht : typed ret G (EMethod (EVar state_var) "pop_state" []) TyStates).
  { eapply ty_method; [apply ty_var; exact Hs|apply me_pop_state; constructor|constructor]. }
  eapply ow_match; [rewrite Hfv, app_nil_r|exact Ht|].
  - eapply ow_method_mut; [exact Hs|reflexivity|apply inside_writable; auto|constructor|constructor|intros t []].
  - apply owns_each. intros p e H. apply in_app_iff in H as [H|[H|[]]].
    + apply in_map_iff in H as (s & He & Hi).
      assert (Hm : exists bs, matches_type Owned ByMove p TyStates bs /\ bs = [("v", TyWritten ty)] /\ binders p = ["v"]).
      { destruct (Hpo s Hi) as (o & Ho & Hd). specialize (Hst s o Ho). inversion He; subst; clear He. eexists. split; [|split; [reflexivity|now destruct (b_destruct b)]].
        destruct (b_destruct b) as [name|].
        - destruct Hd as (Ew & Hpl & f & Hf & E). injection E as ->. eapply mt_con; [exact Hst|]. apply one_pattern. rewrite Ew. eapply mt_variant_field; eauto. constructor.
        - rewrite Hd. eapply mt_con; [exact Hst|]. apply one_pattern. constructor. }
      destruct Hm as (bs & H1 & -> & Hb). assert (E : e = EVar "v") by congruence. clear He. subst e. exists [("v", TyWritten ty)], (TyWritten ty). split; auto. rewrite Hb. split; [|split; [|split]].
      * intros x [<-|[]] _. apply inside_not; auto; discriminate.
      * eapply ow_var; [reflexivity|]. right. split; [|discriminate]. intros H. apply in_without in H as (_ & H). apply H. now left.
      * apply ty_var. reflexivity.
      * intros _. reflexivity.
    + inversion H; subst. exists [], (TyWritten unit_tokens). repeat split; try constructor. intros x [].
Qed.

Lemma binds_free bs rest x : In x (free_vars (emit_binds g tok bs rest)) -> x = state_var \/ In x (free_vars rest).
Proof.
  induction bs as [|b bs IH]; cbn [emit_binds]; auto. cbn [free_vars]. rewrite extract_free. intros [<-|H]; auto. apply in_without in H as (H & _). auto.
Qed.

Lemma owns_binds (bt : bind_code -> rty -> Prop) ret rest t bs live : NoDup (map b_var bs) -> only live ->
  (forall b, In b bs -> exists tb, bt b tb /\ popped u em types b tb) -> (forall b t, bt b t -> exists ty, t = TyWritten ty) ->
  ~ In peeked_val_ident (free_vars rest) -> loan_of t = NoLoan ->
  forall G, is_fn_context G -> inside G ->
  (forall G', extends bt bs G G' -> typed ret G' rest t) ->
  (forall G' live, extends bt bs G G' -> inside G' -> only live -> owns ret G' NoLoan live rest) ->
  owns ret G NoLoan live (emit_binds g tok bs rest).
Proof.
  intros Hn HL Hb Hw Hp Hlt. revert live HL Hn Hb. induction bs as [|b bs IH]; intros live HL Hn Hb G Hs HG Ht Ho; cbn [emit_binds].
  - apply Ho; auto. split; [reflexivity|intros ? []].
  - destruct (Hb b (or_introl eq_refl)) as (tb & H1 & H2). destruct (Hw _ _ H1) as (ty & ->). inversion Hn as [|? ? Hn1 Hn2]; subst.
    assert (Hext : forall G', extends bt bs ((bound_variable_ident (b_var b), TyWritten ty) :: G) G' -> extends bt (b :: bs) G G').
    { intros G' (E1 & E2). split.
      - intros x Hx. rewrite E1 by (intros b' Hi; apply Hx; now right). cbn [type_of].
        destruct (String.eqb_spec x (bound_variable_ident (b_var b))) as [E|]; auto. exfalso. apply (Hx b (or_introl eq_refl) E).
      - intros b' [<-|Hi]; [|auto]. exists (TyWritten ty). split; auto. rewrite E1.
        + cbn [type_of]. now rewrite String.eqb_refl.
        + intros b' Hi E. apply variable_inj in E. apply Hn1. rewrite E. now apply in_map. }
    assert (Hs' : is_fn_context ((bound_variable_ident (b_var b), TyWritten ty) :: G)).
    { cbn [type_of]. destruct (String.eqb_spec state_var (bound_variable_ident (b_var b))) as [E|]; auto. now apply state_not_bound in E. }
    eapply ow_let with (t := TyWritten ty) (t' := t).
    + eapply owns_extract; eauto. rewrite in_app_iff. intros [H|H]; [apply HL in H; discriminate H|].
      apply in_without in H as (H & _). apply binds_free in H as [H|H]; [discriminate H|contradiction].
    + eapply extract_typed; eauto.
    + intros Hi. apply HL in Hi. symmetry in Hi. now apply state_not_bound in Hi.
    + apply IH; eauto using only_without.
      * intros b' Hi. apply Hb. now right.
      * apply inside_cons; eauto.
    + eapply binds_typed with (bt := bt); eauto. intros b' Hi. apply Hb. now right.
    + exact Hlt.
Qed.

(** Pushing what was constructed. *)
Definition final : expr := EReturn (ECon ["Ok"] [ECon (p_control "Continue") []]).
Lemma final_free : free_vars final = [].
Proof. reflexivity. Qed.
Lemma owns_continue ret G held live : owns ret G held live (ECon ["Ok"] [ECon (p_control "Continue") []]).
Proof. apply ow_con. eapply owns_one with (t := TyControl value); [apply ow_con; constructor|]. eapply ty_con; [apply cs_continue|constructor]. Qed.
Lemma owns_final ret G held live : owns ret G held live final.
Proof. apply ow_return, owns_continue. Qed.

Lemma owns_push ret G live s e ty : is_fn_context G -> inside G -> only live -> nth_error types s = Some ty ->
  owns ret G SharedLoan (state_var :: live) e -> typed ret G e (written ty) ->
  owns ret G NoLoan live (EMethod (EVar state_var) "push" [ECon (qualified_enum_variant_name g s) [e]]).
Proof.
  intros Hs HG HL Hty He Ht. assert (Ht' : typed ret G (ECon (qualified_enum_variant_name g s) [e]) TyStates) by (eapply ty_con; [eauto|now apply typed_one]).
  eapply ow_method_mut with (ts := [TyStates]); [exact Hs|reflexivity| | |now apply typed_one|intros t [<-|[]]; reflexivity].
  - apply inside_writable; auto. intros H. apply HL in H. discriminate H.
  - eapply owns_one; [|exact Ht']. apply ow_con. eapply owns_one; [exact He|exact Ht].
Qed.

Lemma goto_free i c gt x : In x (free_vars (emit_goto g ety i c gt final)) -> x = state_var \/ In x (free_vars (emit_constructor ety i c)).
Proof.
  destruct gt as [s|arms]; cbn [emit_goto free_vars flat_map]; rewrite ?final_free, ?app_nil_r; cbn [app].
  - intros [<-|H]; auto.
  - rewrite in_app_iff. intros [H|H]; auto. apply in_without in H as ([H|H] & Hn); [auto|]. rewrite flat_map_app, in_app_iff in H. destruct H as [H|H]; [|destruct H].
    apply in_flat_map in H as ([p e] & Hi & Hx). apply in_map_iff in Hi as ([from s] & E & _). inversion E; subst. apply in_without in Hx as (Hx & _).
    cbn in Hx. destruct Hx as [<-|[<-|[]]]; auto. exfalso. apply Hn. now left.
Qed.

Lemma goto_rest_typed G arms ty : is_fn_context G -> goto_fits types (GotoMatch arms) ty ->
  typed fn_result (("__constructed", TyWritten ty) :: G)
    (ESeq (EMatch (EMethod (EVar state_var) "state" [])
       (map (fun arm : list nat * nat =>
          (match_any g (fst arm),
           EMethod (EVar state_var) "push" [ECon (qualified_enum_variant_name g (snd arm)) [EVar "__constructed"]])) arms ++
        [(PtWild, EUnreachable)])) final) fn_result.
Proof.
  intros Hs Hg. set (G' := ("__constructed", TyWritten ty) :: G).
  assert (Hs' : is_fn_context G') by exact Hs. eapply ty_seq; [|apply ty_return, continue_typed].
  eapply ty_match with (t := TyRef false TyStates) (t' := TyWritten unit_tokens).
  - eapply ty_method; [apply ty_var; exact Hs'|apply me_state; apply rd_ref|constructor].
  - apply wild_covers.
  - apply arms_typed. intros p e H. apply in_app_iff in H as [H|[H|[]]].
    + apply in_map_iff in H as ([from s] & He & Hi). inversion He; subst; clear He. cbn [fst snd].
      destruct (Hg from s Hi) as ((o & Ho & Hw) & Hne & Hf). exists []. split.
      * unfold match_any. apply mt_or; [destruct from; [congruence|discriminate]|].
        intros p Hp. apply in_map_iff in Hp as (s0 & <- & Hs0). destruct (Hf s0 Hs0) as (o0 & Ho0).
        apply mt_through; [exact I|]. eapply mt_con_rest; [eauto|discriminate].
      * cbn [app]. eapply push_typed; eauto. rewrite Hw. apply ty_var. reflexivity.
    + inversion H; subst. exists []. split; [constructor|apply ty_unreachable].
Qed.

Lemma owns_goto G live i c gt ty : is_fn_context G -> inside G -> only live -> clean c -> ctor_fits u i c G ty -> goto_fits types gt ty ->
  owns fn_result G NoLoan live (emit_goto g ety i c gt final).
Proof.
  intros Hs HG HL Hc Hf Hg. destruct gt as [s|arms]; cbn [emit_goto goto_fits] in *.
  - destruct Hg as (o & Ho & Hw). apply ow_seq; [|apply owns_final]. rewrite final_free, app_nil_r. eapply owns_push; eauto.
    + eapply owns_ctor; eauto. intros y [<-|Hy]; auto.
    + rewrite Hw. now apply ctor_typed.
  - set (G' := ("__constructed", TyWritten ty) :: G). assert (Hs' : is_fn_context G') by exact Hs.
    assert (HG' : inside G') by (apply inside_cons; auto).
    eapply ow_let with (t := TyWritten ty) (t' := fn_result); [|now apply ctor_typed| | | |reflexivity].
    + eapply owns_ctor; eauto. intros y. rewrite in_app_iff. intros [H|H]; auto. apply in_without in H as (H & Hn). cbn [free_vars flat_map app] in H.
      rewrite app_nil_r in H. destruct H as [<-|H]; auto. rewrite flat_map_app, in_app_iff in H. destruct H as [H|[]].
      apply in_flat_map in H as ([p e] & Hi & Hx). apply in_map_iff in Hi as ([from s] & E & _). inversion E; subst. apply in_without in Hx as (Hx & _).
      cbn in Hx. destruct Hx as [<-|[<-|[]]]; auto. exfalso. apply Hn. now left.
    + intros Hi. apply HL in Hi. discriminate Hi.
    + apply only_without with (xs := ["__constructed"]) in HL. set (L := without ["__constructed"] live) in *. clearbody L.
      apply ow_seq; [|apply owns_final]. rewrite final_free, app_nil_r.
      assert (Ht : typed fn_result G' (EMethod (EVar state_var) "state" []) (TyRef false TyStates)).
      { eapply ty_method; [apply ty_var; exact Hs'|apply me_state; apply rd_ref|constructor]. }
      eapply ow_match; [|exact Ht|].
      * eapply ow_method_ref; [exact Hs'|reflexivity| |constructor]. intros _. split; [discriminate|]. intros y t Hy Hne Hty.
        destruct (HG' y t Hty) as [->|[->|(_ & ty' & ->)]]; [congruence| |discriminate]. exfalso. rewrite in_app_iff in Hy. destruct Hy as [Hy|Hy]; [apply HL in Hy; discriminate Hy|].
        rewrite flat_map_app, in_app_iff in Hy. destruct Hy as [H|[]].
        apply in_flat_map in H as ([p e] & Hi & Hx). apply in_map_iff in Hi as ([from s] & E & _). inversion E; subst. apply in_without in Hx as (Hx & _).
        cbn in Hx. destruct Hx as [H|[H|[]]]; discriminate H.
      * apply owns_each. intros p e H. apply in_app_iff in H as [H|[H|[]]].
        -- apply in_map_iff in H as ([from s] & He & Hi). inversion He; subst; clear He. cbn [fst snd].
           destruct (Hg from s Hi) as ((o & Ho & Hw) & Hne & Hfr). exists [], (TyWritten unit_tokens).
           assert (Hb : binders (match_any g from) = []).
           { unfold match_any. cbn [binders]. clear. induction from as [|x from IH]; auto. }
           split; [|rewrite Hb; split; [intros x []|split; [|split]]].
           ++ unfold match_any. apply mt_or; [destruct from; [congruence|discriminate]|].
              intros p Hp. apply in_map_iff in Hp as (s0 & <- & Hs0). destruct (Hfr s0 Hs0) as (o0 & Ho0).
              apply mt_through; [exact I|]. eapply mt_con_rest; [eauto|discriminate].
           ++ cbn [app]. apply only_without with (xs := []) in HL. set (L0 := without [] L) in *. clearbody L0. eapply owns_push; eauto.
              ** eapply ow_var; [reflexivity|]. right. split; [|discriminate]. intros [H|H]; [discriminate H|apply HL in H; discriminate H].
              ** rewrite Hw. apply ty_var. reflexivity.
           ++ cbn [app]. eapply push_typed; eauto. rewrite Hw. apply ty_var. reflexivity.
           ++ intros _. reflexivity.
        -- inversion H; subst. exists [], (TyWritten unit_tokens). repeat split; try constructor. intros x [].
    + now apply goto_rest_typed.
Qed.

(** The arms that reduce, accept and return errors. *)
Definition clean_state (c : state_code) : Prop :=
  (forall ms r, In (ms, r) (sc_reduce c) -> clean (r_ctor r)) /\ (forall m a, sc_accept c = Some (m, a) -> clean (a_ctor a)).

Local Notation fn_vars := [(peeked_val_ident, peeked); (state_var, TyRef true TyParserState)].

Lemma fn_inside : inside fn_vars.
Proof.
  intros y t. cbn [type_of]. destruct (String.eqb_spec y peeked_val_ident) as [->|_]; auto. destruct (String.eqb_spec y state_var) as [->|_]; auto. discriminate.
Qed.

Lemma matcher_binders m bs : matcher_fits u em m -> bound_of u m bs -> binders (emit_matcher tok m) = map fst bs.
Proof.
  destruct m as [|[]]; cbn; intros Hf H; try contradiction; try (now subst bs); destruct H as (f' & _ & ->); reflexivity.
Qed.

Lemma owns_others c live t : state_fits u em types c -> clean_state c -> only live -> loan_of t = NoLoan -> forall p e,
  In (p, e) (map (emit_reduce_arm g tok ety) (sc_reduce c) ++ match sc_accept c with Some a => [emit_accept_arm g tok ety a] | None => [] end ++ emit_return_err) ->
  exists bs t', matches_type Owned ByMove p peeked bs /\ (forall x, In x (binders p) -> In x live -> type_of fn_vars x = None) /\
    owns fn_result (bs ++ fn_vars) NoLoan (without (binders p) live) e /\ typed fn_result (bs ++ fn_vars) e t' /\ not_dangling peeked t'.
Proof.
  intros Hst' [Hcr Hca] HL Hlt p e H. pose proof Hst' as [_ Hr Ha _].
  assert (Hs : is_fn_context fn_vars) by reflexivity. apply in_app_iff in H as [H|H]; [|apply in_app_iff in H as [H|H]].
  - apply in_map_iff in H as ([ms r] & He & Hi). cbn [emit_reduce_arm] in He. inversion He; subst; clear He.
    destruct (Hr ms r Hi) as (Hne & Hm & ty & (bt & Hnd & Hb & Hw & Hc) & Hg).
    assert (Hbi : binders (PtOr (map (emit_matcher tok) ms)) = []).
    { cbn [binders]. clear - Hm. induction ms as [|m ms IH]; auto. cbn [map flat_map]. rewrite IH by (intros; apply Hm; now right).
      destruct (Hm m (or_introl eq_refl)) as (H1 & H2). destruct (matcher_typed u em m H1) as (bs & _ & H4). rewrite (matcher_binders m bs H1 H4).
      now rewrite (unnamed_bound u m bs H2 H4). }
    assert (Hfin : forall G', is_fn_context G' -> typed fn_result G' final fn_result) by (intros; apply ty_return, continue_typed).
    assert (Hfree : ~ In peeked_val_ident (free_vars (emit_goto g ety (r_rule r) (r_ctor r) (r_goto r) final))).
    { intros H. apply goto_free in H as [H|H]; [discriminate H|]. revert H. apply clean_free. eauto. }
    exists [], fn_result. cbn [app]. rewrite Hbi. split; [|split; [intros x []|split; [|split; [|discriminate]]]].
    + apply mt_or; [destruct ms; [congruence|discriminate]|]. intros p Hp. apply in_map_iff in Hp as (m & <- & Hmi). destruct (Hm m Hmi) as (H1 & H2).
      destruct (matcher_typed u em m H1) as (bs & H3 & H4). now rewrite (unnamed_bound u m bs H2 H4) in H3.
    + apply owns_binds with (bt := bt) (t := fn_result); auto using only_without, fn_inside.
      * intros G' HG. eapply goto_typed with (ty := ty) (types := types); eauto using extends_state.
      * intros G' L HG Hin HL'. eapply owns_goto with (ty := ty); eauto using extends_state.
    + eapply binds_typed with (bt := bt) (types := types); eauto. intros G' HG. eapply goto_typed with (ty := ty) (types := types); eauto using extends_state.
  - destruct (sc_accept c) as [[m a]|]; [|destruct H]. destruct H as [H|[]]. cbn [emit_accept_arm] in H. inversion H; subst; clear H.
    destruct (Ha m a eq_refl) as (-> & bt & Hnd & Hb & Hw & Hc). specialize (Hca MNone a eq_refl).
    set (rest := ESeq _ _).
    assert (Hrt : forall G', extends bt (a_binds a) fn_vars G' -> typed fn_result G' rest fn_result).
    { intros G' HG. pose proof (extends_state _ _ _ _ HG Hs) as Hs'.
      eapply ty_seq; [eapply ty_method; [apply ty_var; exact Hs'|apply me_verify; apply rd_ref|constructor]|].
      apply ty_return. eapply ty_con; [apply cs_ok|]. apply typed_one. eapply ty_con; [apply cs_accept|]. apply typed_one. eapply ctor_typed; eauto. }
    assert (Hfree : ~ In peeked_val_ident (free_vars rest)).
    { unfold rest. cbn [free_vars flat_map app]. rewrite !app_nil_r. intros [H|H]; [discriminate H|]. revert H. apply clean_free, Hca. }
    exists [], fn_result. cbn [app emit_matcher binders flat_map]. split; [|split; [intros x []|split; [|split; [|discriminate]]]].
    + destruct (matcher_typed u em MNone I) as (bs & H3 & H4). cbn in H4. now subst bs.
    + apply owns_binds with (bt := bt) (t := fn_result); auto using only_without, fn_inside.
      intros G' L HG Hin HL'. pose proof (extends_state _ _ _ _ HG Hs) as Hs'. specialize (Hc _ _ HG). unfold rest. apply ow_seq.
      * eapply ow_method_ref; [exact Hs'|reflexivity| |constructor]. intros _. split; [discriminate|]. intros y t0 Hy Hne Hty.
        destruct (Hin y t0 Hty) as [->|[->|(_ & ty' & ->)]]; [congruence| |discriminate].
        rewrite in_app_iff in Hy. destruct Hy as [Hy|Hy]; [apply HL' in Hy; discriminate Hy|]. exfalso. apply Hfree. right. exact Hy.
      * assert (Hct : typed fn_result G' (emit_constructor ety (a_rule a) (a_ctor a)) value) by (eapply ctor_typed; eauto).
        apply ow_return, ow_con. eapply owns_one with (t := TyControl value).
        -- apply ow_con. eapply owns_one with (t := value); [|exact Hct]. eapply owns_ctor; eauto.
        -- eapply ty_con; [apply cs_accept|]. now apply typed_one.
    + eapply binds_typed with (bt := bt) (types := types); eauto.
  - destruct H as [H|[H|[]]]; inversion H; subst; clear H.
    + exists [("peeked_token", TyRef false token)], fn_result. cbn [app binders flat_map].
      assert (Hcl : typed fn_result (("peeked_token", TyRef false token) :: fn_vars) (ECon ["Some"] [EMethod (EVar "peeked_token") "clone" []]) (TyOption token)).
      { eapply ty_con; [apply cs_some|]. apply typed_one. eapply ty_method; [apply ty_var; reflexivity|apply me_clone; exact Hclone|constructor]. }
      assert (Hcall : typed fn_result (("peeked_token", TyRef false token) :: fn_vars) (ECall (p_error "new") [ECon ["Some"] [EMethod (EVar "peeked_token") "clone" []]]) TyParserError).
      { eapply ty_call; [apply ft_error|]. now apply typed_one. }
      split; [|split; [|split; [|split; [|discriminate]]]].
      * eapply mt_con; [apply cs_some|]. apply one_pattern. constructor.
      * intros x [<-|[]] _. reflexivity.
      * apply ow_return, ow_con. eapply owns_one; [|exact Hcall]. apply ow_call. eapply owns_one; [|exact Hcl]. apply ow_con. eapply owns_one with (t := token).
        -- eapply ow_method_ref; [reflexivity|reflexivity|discriminate|constructor].
        -- eapply ty_method; [apply ty_var; reflexivity|apply me_clone; exact Hclone|constructor].
      * apply ty_return. eapply ty_con; [apply cs_err|]. now apply typed_one.
    + exists [], fn_result. cbn [app binders flat_map].
      assert (Hno : typed fn_result fn_vars (ECon ["None"] []) (TyOption token)) by (eapply ty_con; [apply cs_none|constructor]).
      assert (Hcall : typed fn_result fn_vars (ECall (p_error "new") [ECon ["None"] []]) TyParserError) by (eapply ty_call; [apply ft_error|now apply typed_one]).
      split; [|split; [intros x []|split; [|split; [|discriminate]]]].
      * eapply mt_con; [apply cs_none|constructor].
      * apply ow_return, ow_con. eapply owns_one; [|exact Hcall]. apply ow_call. eapply owns_one; [|exact Hno]. apply ow_con. constructor.
      * apply ty_return. eapply ty_con; [apply cs_err|]. now apply typed_one.
Qed.


(** Looking at the next token. *)
Lemma owns_peek live : owns fn_result [(state_var, TyRef true TyParserState)] NoLoan live emit_peek_next.
Proof.
  set (G := [(state_var, TyRef true TyParserState)]). assert (Hs : is_fn_context G) by reflexivity. unfold emit_peek_next.
  set (inner := EMatch _ _).
  assert (T1 : typed fn_result G (EMethod (EVar state_var) "stream" []) (TyRef false TyParserStream)) by (eapply ty_method; [apply ty_var; exact Hs|apply me_stream; apply rd_ref|constructor]).
  assert (T2 : typed fn_result G (EMethod (EMethod (EVar state_var) "stream" []) "peek_next" []) (TyOption (TyRef false (TyResult TyB TyE))))
    by (eapply ty_method; [exact T1|apply me_peek_next; apply rd_ref|constructor]).
  set (res := TyResult (TyRef false token) TyParserError).
  assert (T3 : forall ret G', type_of G' "token" = Some (TyRef false TyB) -> typed ret G' (ECon ["Ok"] [EMethod (EVar "token") "borrow" []]) res).
  { intros ret G' H. eapply ty_con; [apply cs_ok|]. apply typed_one. eapply ty_method; [apply ty_var; exact H|apply me_borrow|constructor]. }
  assert (T4 : forall ret G', type_of G' "err" = Some (TyRef false TyE) -> typed ret G' (EMethod (EVar "err") "clone" []) TyE).
  { intros ret G' H. eapply ty_method; [apply ty_var; exact H|apply me_clone_error|constructor]. }
  assert (T5 : forall ret G', type_of G' "err" = Some (TyRef false TyE) -> typed ret G' (EMethod (EMethod (EVar "err") "clone" []) "into_user_error" []) TyParserError).
  { intros ret G' H. eapply ty_method; [now apply T4|apply me_into_user_error|constructor]. }
  assert (T6 : typed res (("token", TyRef false (TyResult TyB TyE)) :: G) inner res).
  { eapply ty_match; [apply ty_var; reflexivity| |].
    - apply cv_ref, cv_result; right.
      + exists [PtVar "token"]. split; [now left|]. split; auto. constructor; [exact I|constructor].
      + exists [PtVar "err"]. split; [right; now left|]. split; auto. constructor; [exact I|constructor].
    - apply arms_typed. intros p e [H|[H|[]]]; inversion H; subst; clear H.
      + exists [("token", TyRef false TyB)]. split; [apply mt_through; [exact I|]; eapply mt_con; [apply cs_ok|]; apply one_pattern; constructor|now apply T3].
      + exists [("err", TyRef false TyE)]. split; [apply mt_through; [exact I|]; eapply mt_con; [apply cs_err|]; apply one_pattern; constructor|].
        eapply ty_con; [apply cs_err|]. apply typed_one. now apply T5. }
  assert (T7 : typed fn_result G (EMapOption (EMethod (EMethod (EVar state_var) "stream" []) "peek_next" []) "token" inner) (TyOption res)) by (eapply ty_map; [exact T2|exact T6]).
  apply ow_try. eapply ow_method; [|exact T7|constructor|eapply ty_method; [exact T7|apply me_transpose|constructor]|discriminate].
  eapply ow_map; [|exact T2| |exact T6| |discriminate].
  - eapply ow_method; [|exact T1|constructor|exact T2|discriminate].
    eapply ow_method_ref; [exact Hs|reflexivity| |constructor]. intros _. split; [discriminate|]. intros y t _ Hne. cbn [G type_of].
    destruct (String.eqb_spec y state_var); [contradiction|discriminate].
  - reflexivity.
  - eapply ow_match with (t := TyRef false (TyResult TyB TyE)); [|apply ty_var; reflexivity|].
    + eapply ow_var; [reflexivity|]. now left.
    + apply owns_each. intros p e [H|[H|[]]]; inversion H; subst; clear H; cbn [binders flat_map app].
      * exists [("token", TyRef false TyB)], res. split; [|split; [|split; [|split; [|discriminate]]]].
        -- apply mt_through; [exact I|]. eapply mt_con; [apply cs_ok|]. apply one_pattern. constructor.
        -- intros x [<-|[]] H. apply in_without in H as (_ & H). exfalso. apply H. now left.
        -- apply ow_con. eapply owns_one with (t := TyRef false token); [eapply ow_method_ref; [reflexivity|reflexivity|discriminate|constructor]|].
           eapply ty_method; [apply ty_var; reflexivity|apply me_borrow|constructor].
        -- now apply T3.
      * exists [("err", TyRef false TyE)], res. split; [|split; [|split; [|split; [|discriminate]]]].
        -- apply mt_through; [exact I|]. eapply mt_con; [apply cs_err|]. apply one_pattern. constructor.
        -- intros x [<-|[]] _. reflexivity.
        -- apply ow_con. eapply owns_one with (t := TyParserError); [|now apply T5].
           eapply ow_method; [|now apply T4|constructor|now apply T5|intros _; reflexivity].
           eapply ow_method_ref; [reflexivity|reflexivity|discriminate|constructor].
        -- eapply ty_con; [apply cs_err|]. apply typed_one. now apply T5.
Qed.

Lemma owns_check ck live rest : (forall ms, ck = Some ms -> ms <> [] /\ forall m, In m ms -> matcher_fits u em m) ->
  owns fn_result fn_vars NoLoan live rest -> owns fn_result fn_vars NoLoan live (emit_check tok ck rest).
Proof.
  intros Hc Hr. destruct ck as [ms|]; cbn [emit_check]; auto. destruct (Hc ms eq_refl) as (Hne & Hm). apply ow_debug; auto.
  set (G := ("count_matches", TyUsize) :: fn_vars).
  assert (T1 : typed fn_result G (EFormat (EVar peeked_val_ident)) TyString) by (apply ty_format; [reflexivity|exact Hdebug]).
  assert (T2 : typed fn_result G (ECall (p_error "overlapping_token_matchers") [EFormat (EVar peeked_val_ident)]) TyParserError) by (eapply ty_call; [apply ft_overlap|now apply typed_one]).
  assert (T3 : typed fn_result fn_vars (ESumMatches (EVar peeked_val_ident) (map (emit_matcher tok) ms)) TyUsize).
  { eapply ty_sum_matches; [reflexivity| |destruct ms; [congruence|discriminate]].
    intros p Hp. apply in_map_iff in Hp as (m & <- & Hi). destruct (matcher_typed u em m (Hm m Hi)) as (bs & H & _). eauto. }
  eapply ow_let; [|exact T3| | | |].
  - eapply ow_sum_matches; reflexivity.
  - reflexivity.
  - apply ow_if_more; [eapply ow_var; [reflexivity|now left]|]. apply ow_return, ow_con. eapply owns_one; [|exact T2]. apply ow_call. eapply owns_one; [|exact T1].
    eapply ow_format; [reflexivity|discriminate].
  - apply ty_if_more; [apply ty_var; reflexivity|]. apply ty_return. eapply ty_con; [apply cs_err|]. now apply typed_one.
  - reflexivity.
Qed.

Lemma owns_shift a live : shift_fits u em types a -> exists bs t', matches_type Owned ByMove (fst (emit_shift_arm g tok a)) peeked bs /\
  (forall x, In x (binders (fst (emit_shift_arm g tok a))) -> In x live -> type_of fn_vars x = None) /\
  owns fn_result (bs ++ fn_vars) NoLoan (without (binders (fst (emit_shift_arm g tok a))) live) (snd (emit_shift_arm g tok a)) /\
  typed fn_result (bs ++ fn_vars) (snd (emit_shift_arm g tok a)) t' /\ not_dangling peeked t'.
Proof.
  destruct a as [[m s] rhs]. cbn [emit_shift_arm fst snd shift_fits]. intros (Hm & Hs & Hr). destruct (matcher_typed u em m Hm) as (bs & H1 & H2).
  assert (Hx : exists t, owns fn_result (bs ++ fn_vars) NoLoan (without (binders (emit_matcher tok m)) live) (emit_token tok rhs) /\
    typed fn_result (bs ++ fn_vars) (emit_token tok rhs) t /\ t = token).
  { destruct rhs as [l|n|n|n|n pat|n pat|n]; try contradiction; cbn [emit_token].
    - exists token. repeat split; [constructor|now apply ty_literal].
    - destruct Hr. exists token. repeat split; [apply ow_variant; constructor|now apply ty_variant].
    - destruct Hr as (Hpl & f & Hf & Hcl & Hx).
      assert (Hb : bs = [(wildcard_bound_variable, TyRef false (TyWritten f))]).
      { destruct m as [|[]]; try contradiction; cbn in H2; destruct H2 as (f' & Hf' & ->); now rewrite (Hx f' Hf'). }
      subst bs. assert (Ht : typed fn_result ((wildcard_bound_variable, TyRef false (TyWritten f)) :: fn_vars) (EMethod (EVar wildcard_bound_variable) "clone" []) (TyWritten f))
        by (eapply ty_method; [apply ty_var; reflexivity|apply me_clone; exact Hcl|constructor]).
      exists token. repeat split; [|eapply ty_variant_field; eauto]. apply ow_variant. eapply owns_one; [|exact Ht].
      eapply ow_method_ref; [reflexivity|reflexivity|discriminate|constructor]. }
  destruct Hx as (t & O1 & T1 & ->). exists bs, TyStates. split; [exact H1|]. split; [|split; [|split; [|discriminate]]].
  - intros x Hx _. rewrite (matcher_binders m bs Hm H2) in Hx. destruct m as [|[]]; cbn in H2; try (subst bs; destruct Hx); destruct H2 as (f' & _ & ->); destruct Hx as [<-|[]]; reflexivity.
  - apply ow_con. eapply owns_one; [exact O1|exact T1].
  - eapply ty_con; [exact (Hst _ _ Hs)|]. now apply typed_one.
Qed.

Lemma owns_actions c : state_fits u em types c -> clean_state c ->
  owns fn_result [(state_var, TyRef true TyParserState)] NoLoan [] (emit_actions g tok ety c).
Proof.
  intros Hf Hcl. unfold emit_actions. set (rest := emit_check _ _ _).
  assert (Ht : typed fn_result fn_vars rest fn_result).
  { pose proof (fun t => others_typed u em g ety types Herr Hue Hclone Hst c fn_vars t Hf (conj eq_refl eq_refl)) as Hoth.
    apply check_typed; [exact Hdebug|apply sf_check with (types := types); exact Hf|reflexivity|]. destruct (sc_shift c) as [|sa shifts] eqn:Hs.
    - eapply ty_match; [apply ty_var; reflexivity|rewrite app_assoc; apply peeked_covers|]. apply arms_typed. apply Hoth.
    - rewrite <- Hs. eapply ty_let with (t := TyStates).
      + eapply ty_match; [apply ty_var; reflexivity|rewrite !app_assoc, <- app_assoc, app_assoc; apply peeked_covers|]. apply arms_typed. intros p e H.
        apply in_app_iff in H as [H|H]; [|now apply Hoth]. apply in_map_iff in H as (a & He & Hi).
        destruct (shift_typed u em g types Hst a fn_vars (sf_shift _ _ _ _ Hf a Hi)) as (bs & H1 & H2). rewrite He in H1, H2. eauto.
      + set (G' := ("next_state", TyStates) :: fn_vars). assert (HG' : is_fn_context G') by reflexivity.
        eapply ty_seq; [eapply ty_method; [eapply ty_method; [apply ty_var; exact HG'|apply me_stream_mut; apply wr_ref|constructor]|apply me_advance; apply wr_ref|constructor]|].
        eapply ty_seq; [eapply ty_method; [apply ty_var; exact HG'|apply me_push; apply wr_ref|apply typed_one; apply ty_var; reflexivity]|].
        apply continue_typed. }
  eapply ow_let with (t := peeked); [apply owns_peek|eapply peek_typed; reflexivity|intros []| |exact Ht|reflexivity].
  cbn [without filter]. subst rest. apply owns_check; [apply sf_check with (types := types); exact Hf|]. clear Ht.
  assert (Hno : only []) by (intros y []). destruct (sc_shift c) as [|sa shifts] eqn:Hs.
  - eapply ow_match with (t := peeked); [eapply ow_var; [reflexivity|now left]|apply ty_var; reflexivity|]. apply owns_each.
    exact (owns_others c [] fn_result Hf Hcl Hno eq_refl).
  - rewrite <- Hs. set (tail := ESeq _ _). set (G' := ("next_state", TyStates) :: fn_vars). assert (HG' : is_fn_context G') by reflexivity.
    assert (T1 : typed fn_result G' (EMethod (EVar state_var) "stream_mut" []) (TyRef true TyParserStream)) by (eapply ty_method; [apply ty_var; exact HG'|apply me_stream_mut; apply wr_ref|constructor]).
    assert (T2 : typed fn_result G' (EMethod (EMethod (EVar state_var) "stream_mut" []) "advance" []) (TyWritten unit_tokens)) by (eapply ty_method; [exact T1|apply me_advance; apply wr_ref|constructor]).
    assert (Hwr : forall live, ~ In peeked_val_ident live -> writable G' NoLoan live state_var).
    { intros live Hp. split; auto. intros y t Hy Hne. cbn [G' type_of]. destruct (String.eqb y "next_state"); [intros E; injection E as <-; reflexivity|].
      destruct (String.eqb_spec y peeked_val_ident) as [->|]; [contradiction|]. destruct (String.eqb_spec y state_var); [contradiction|discriminate]. }
    eapply ow_let with (t := TyStates) (t' := fn_result).
    + eapply ow_match with (t := peeked); [eapply ow_var; [reflexivity|now left]|apply ty_var; reflexivity|]. apply owns_each.
      assert (Hon : only ([] ++ without ["next_state"] (free_vars tail))).
      { intros y Hy. vm_compute in Hy. destruct Hy as [<-|[<-|[]]]; reflexivity. }
      intros p e H. apply in_app_iff in H as [H|H]; [|exact (owns_others c _ fn_result Hf Hcl Hon eq_refl p e H)].
      apply in_map_iff in H as (a & He & Hi). pose proof (owns_shift a ([] ++ without ["next_state"] (free_vars tail)) (sf_shift _ _ _ _ Hf a Hi)) as Ho.
      rewrite He in Ho. exact Ho.
    + eapply ty_match; [apply ty_var; reflexivity|rewrite !app_assoc, <- app_assoc, app_assoc; apply peeked_covers|]. apply arms_typed. intros p e H.
      apply in_app_iff in H as [H|H]; [|eapply others_typed; eauto; split; reflexivity]. apply in_map_iff in H as (a & He & Hi).
      destruct (shift_typed u em g types Hst a fn_vars (sf_shift _ _ _ _ Hf a Hi)) as (bs & H1 & H2). rewrite He in H1, H2. eauto.
    + intros [].
    + unfold tail. apply ow_seq.
      * eapply ow_method; [|exact T1|constructor|exact T2|discriminate].
        eapply ow_method_mut; [exact HG'|reflexivity| |constructor|constructor|intros t []]. apply Hwr. vm_compute. intuition discriminate.
      * apply ow_seq; [|apply owns_continue]. eapply ow_method_mut with (ts := [TyStates]); [exact HG'|reflexivity| | | |intros t [<-|[]]; reflexivity].
        -- apply Hwr. vm_compute. tauto.
        -- eapply owns_one; [|apply ty_var; reflexivity]. eapply ow_var; [reflexivity|]. right. split; [vm_compute; intuition discriminate|discriminate].
        -- apply typed_one. apply ty_var. reflexivity.
    + unfold tail. eapply ty_seq; [exact T2|].
      eapply ty_seq; [eapply ty_method; [apply ty_var; exact HG'|apply me_push; apply wr_ref|apply typed_one; apply ty_var; reflexivity]|].
      apply continue_typed.
    + reflexivity.
Qed.

(** The loop. *)
Local Notation input_var := (unique_prefixed_ident "input_stream").

Lemma owns_loop n root : nth_error types root = Some None -> n = List.length types ->
  (forall v ty, In (v, ty) (e_variants (em_enum em)) -> exists s, s < n /\ [e_name (em_enum em); v] = qualified_enum_variant_name g s) ->
  (forall s, s < n -> exists f, In f (em_fns em) /\ f_name f = state_action_function_name s) ->
  owns (TyResult value TyParserError) [(input_var, TyInput)] NoLoan [] (emit_parse_loop g n root).
Proof.
  intros Hroot Hn Hv Hf. pose proof (loop_typed u em g types Hst n root Hroot Hn Hv Hf) as Hlt. unfold emit_parse_loop in *.
  set (arms := map _ (seq 0 n)) in *. set (last := EMatch (EVar "action") _) in *.
  set (G0 := [(input_var, TyInput)]) in *. set (G1 := ("state", TyParserState) :: G0). set (G2 := ("action", TyControl value) :: G1).
  set (ret := TyResult value TyParserError) in *.
  assert (Ha : forall x, In x (flat_map (fun a => without (binders (fst a)) (free_vars (snd a))) arms) -> x = "state").
  { intros x Hx. apply in_flat_map in Hx as ([p e] & Hi & Hx). apply in_map_iff in Hi as (s & E & _). inversion E; subst. apply in_without in Hx as (Hx & _). destruct Hx as [<-|[]]. reflexivity. }
  assert (Hl : without ["action"] (free_vars last) = []) by reflexivity.
  assert (T1 : typed ret G1 (EMethod (EVar "state") "state" []) (TyRef false TyStates)) by (eapply ty_method; [apply ty_var; reflexivity|apply me_state; apply rd_value|constructor]).
  assert (T2 : typed_arms u em ret G1 (TyRef false TyStates) arms (control_result em)).
  { apply arms_typed. intros p e H. apply in_map_iff in H as (s & He & Hi). apply in_seq in Hi. inversion He; subst p e; clear He. exists []. split.
    - apply mt_through; [exact I|]. destruct (nth_error types s) as [ty|] eqn:Hty; [|apply nth_error_None in Hty; lia]. eapply mt_con_rest; [eauto|discriminate].
    - destruct (Hf s) as (f & Hfi & <-); [lia|]. eapply ty_call; [apply ft_fn; exact Hfi|]. apply typed_one. apply ty_ref_mut. reflexivity. }
  assert (T3 : typed ret G1 (ETry (EMatch (EMethod (EVar "state") "state" []) arms)) (TyControl value)).
  { eapply ty_try; [|reflexivity|apply tf_same]. eapply ty_match; [exact T1| |exact T2].
    apply cv_ref, cv_states. intros v ty Hi. left. destruct (Hv v ty Hi) as (s & Hs & ->). unfold arms. rewrite map_map. cbn [fst].
    apply in_map_iff. exists s. split; [reflexivity|]. apply in_seq. lia. }
  assert (T4 : typed ret G2 last (TyWritten unit_tokens)).
  { eapply ty_match; [apply ty_var; reflexivity| |].
    - apply cv_control; right.
      + exists []. split; [right; now left|]. auto.
      + exists [PtVar "result"]. split; [now left|]. split; auto. constructor; [exact I|constructor].
    - apply arms_typed. intros p e [H|[H|[]]]; inversion H; subst; clear H.
      + exists [("result", value)]. split; [eapply mt_con; [apply cs_accept|]; apply one_pattern; constructor|].
        apply ty_return. eapply ty_con; [apply cs_ok|]. apply typed_one. apply ty_var. reflexivity.
      + exists []. split; [eapply mt_con; [apply cs_continue|constructor]|constructor]. }
  assert (T5 : typed ret G1 (ELoop (ELet "action" (ETry (EMatch (EMethod (EVar "state") "state" []) arms)) last)) ret) by (apply ty_loop; eapply ty_let; [exact T3|exact T4]).
  set (body := ELet "action" _ _) in *.
  assert (Hb : forall x, In x (free_vars body) -> x = "state").
  { intros x Hx. unfold body in Hx. cbn [free_vars flat_map app] in Hx. destruct Hx as [<-|Hx]; [reflexivity|]. rewrite in_app_iff in Hx. destruct Hx as [Hx|Hx]; [auto|]. rewrite Hl in Hx. destruct Hx. }
  assert (T6 : typed ret G0 (EMethod (EVar input_var) "into_iter" []) TyIter) by (eapply ty_method; [apply ty_var; reflexivity|apply me_into_iter|constructor]).
  assert (T7 : typed ret G0 (ECon (qualified_enum_variant_name g root) [EUnit]) TyStates) by (eapply ty_con; [exact (Hst _ _ Hroot)|]; apply typed_one; constructor).
  eapply ow_let with (t := TyParserState); [| |intros []| |exact T5|reflexivity].
  - cbn [app]. set (live := without _ _). assert (Hlive : live = []).
    { destruct live as [|x l] eqn:E; auto. assert (Hi : In x live) by (rewrite E; now left). unfold live in Hi. apply in_without in Hi as (Hi & Hx). cbn [free_vars] in Hi.
      apply Hb in Hi. subst x. exfalso. apply Hx. now left. }
    rewrite Hlive. clear live Hlive. apply ow_call. eapply oa_cons; [|exact T6|].
    + eapply ow_method; [|apply ty_var; reflexivity|constructor|exact T6|intros _; reflexivity]. eapply ow_var; [reflexivity|]. right. split; [intros []|discriminate].
    + eapply owns_one; [|exact T7]. apply ow_con. eapply owns_one; [constructor|constructor].
  - eapply ty_call; [apply ft_new|]. constructor; [exact T6|]. now apply typed_one.
  - apply ow_loop. cbn [without filter app]. set (live := free_vars body) in *. clearbody live.
    assert (Hwr : forall l, (forall x, In x l -> x = "state") -> readable G1 NoLoan l "state" /\ writable G1 NoLoan l "state").
    { intros l Hl'. split; split; try discriminate; auto; intros y t Hy Hne; apply Hl' in Hy; contradiction. }
    eapply ow_let; [|exact T3| | |exact T4|reflexivity].
    + rewrite Hl, app_nil_r. apply ow_try. eapply ow_match; [|exact T1|].
      * eapply ow_method_ref; [reflexivity|reflexivity| |constructor]. intros _. apply Hwr. intros x Hx. apply in_app_iff in Hx as [Hx|Hx]; auto.
      * apply owns_each. intros p e H. apply in_map_iff in H as (s & He & Hi). apply in_seq in Hi. inversion He; subst p e; clear He. exists [], (control_result em).
        destruct (Hf s) as (f & Hfi & E); [lia|]. rewrite <- E.
        assert (T8 : typed ret G1 (ERefMut (EVar "state")) (TyRef true TyParserState)) by (apply ty_ref_mut; reflexivity).
        split; [|split; [intros x []|split; [|split; [|discriminate]]]].
        -- apply mt_through; [exact I|]. destruct (nth_error types s) as [ty|] eqn:Hty; [|apply nth_error_None in Hty; lia]. eapply mt_con_rest; [eauto|discriminate].
        -- apply ow_call. eapply owns_one; [|exact T8]. eapply ow_ref_mut; [reflexivity|]. apply Hwr. intros x Hx. apply in_without in Hx as (Hx & _). auto.
        -- eapply ty_call; [apply ft_fn; exact Hfi|]. now apply typed_one.
    + intros Hi. apply Hb in Hi. discriminate Hi.
    + set (l := without ["action"] live). assert (Hl' : forall x, In x l -> x = "state") by (intros x Hx; apply in_without in Hx as (Hx & _); auto). clearbody l.
      eapply ow_match with (t := TyControl value); [|apply ty_var; reflexivity|].
      * eapply ow_var; [reflexivity|]. right. split; [|discriminate]. rewrite in_app_iff. intros [H|H]; [apply Hl' in H; discriminate H|destruct H].
      * apply owns_each. intros p e [H|[H|[]]]; inversion H; subst; clear H; cbn [binders flat_map app].
        -- exists [("result", value)], (TyWritten unit_tokens). split; [|split; [|split; [|split; [|intros _; reflexivity]]]].
           ++ eapply mt_con; [apply cs_accept|]. apply one_pattern. constructor.
           ++ intros x [<-|[]] Hx. apply Hl' in Hx. discriminate Hx.
           ++ apply ow_return, ow_con. eapply owns_one with (t := value); [|apply ty_var; reflexivity]. eapply ow_var; [reflexivity|]. right. split; [|discriminate].
              intros Hx. apply in_without in Hx as (_ & Hx). apply Hx. now left.
           ++ apply ty_return. eapply ty_con; [apply cs_ok|]. apply typed_one. apply ty_var. reflexivity.
        -- exists [], (TyWritten unit_tokens). split; [|split; [intros x []|split; [constructor|split; [constructor|intros _; reflexivity]]]].
           eapply mt_con; [apply cs_continue|constructor].
Qed.
End Code.

Lemma ident_mentions x t : In x (idents t) -> mentions x t.
Proof.
  revert t. fix IH 1. intros [d ts|c s|y|l]; cbn [idents]; intros H; try contradiction.
  - assert (Hg : exists t, In t ts /\ mentions x t).
    { induction ts as [|t ts IHl]; [destruct H|]. cbn [flat_map] in H. apply in_app_or in H. destruct H as [H|H].
      - exists t. split; [now left|]. now apply IH.
      - destruct (IHl H) as (t' & H1 & H2). exists t'. split; [now right|exact H2]. }
    destruct Hg as (t & H1 & H2). econstructor; eassumption.
  - destruct H as [H|[]]. rewrite H. constructor.
Qed.

Lemma clean_ctor p i c : hygienic p -> ctor_of p i c -> Ownership.clean c.
Proof.
  intros Hh Hc body x -> Hx. apply in_flat_map in Hx as (t & Ht & Hx). apply ident_mentions in Hx.
  split; intros ->; (eapply Hh; [exact Hc| |exact Ht|exact Hx]); [right; left; reflexivity|left; reflexivity].
Qed.

Section Main.
Context {bm : BuildMode} (literal_ok : string -> bool) (gi : grammar_info) (p : program) (u : user_code) (d : declarations).
Hypothesis Hfor : generated_for literal_ok d p gi.
Hypothesis Hlabels : forall r, In r (d_rules d) -> exists ty, hm_get (pr_name r) (d_label_types d) = Some ty /\ (ty = None <-> pr_type r = None).
Hypothesis Hfirst : forall r, nth_error (d_rules d) 0 = Some r -> hm_get (pr_name r) (d_label_types d) = Some (pr_type r).
Hypothesis Hfits : user_part_fits u d.
Hypothesis Hsingle : single_patterns u d.
Hypothesis Hplain : plain_token_type d.
Hypothesis Hhyg : hygienic_rules (d_rules d).
Variable vis : visibility.
Local Notation ety := (match d_error_type d with Some ty => Custom ty | None => NoErrorType end).
Local Notation em := (emit vis (d_name d) ety (d_terminal_type d) (Some (value_type (d_rules d))) p).
Local Notation tok := (inner_type (d_terminal_type d)).

Theorem main_owned : well_owned u em.
Proof.
  destruct Hfor as (Htt & Hrules & _ & Hgen).
  pose proof (generated_nameable literal_ok gi p Hgen) as Hnm. destruct (uf_token _ _ Hfits) as (Hcl & Hdb).
  assert (Herr : em_error em = match d_error_type d with Some ty => ty | None => no_error_type end) by (destruct (d_error_type d); reflexivity).
  assert (Hue : u_error u (em_error em)) by (rewrite Herr; apply (uf_error _ _ Hfits)).
  destruct (generated_setup literal_ok gi p Hgen) as (F & ks & acts & gts & Hsu & _ & _ & Hpo). specialize (Hpo bm p Hgen).
  assert (Hst : forall s ty, nth_error (p_types p) s = Some ty -> constructs em (qualified_enum_variant_name (d_name d) s) [written ty] TyStates)
    by (intros s ty H; apply cs_state, enum_has, H).
  assert (Hh : hygienic p).
  { destruct Hgen as (_ & ho & Ha & Ho & Hg). eapply generated_hygienic; eauto. now rewrite Hrules. }
  constructor.
  - intros f Hi. destruct (fns_em literal_ok gi p d Hfor vis f Hi) as (s & c & Hc & _ & ->). cbn [f_param f_body emit_function].
    eapply owns_actions; eauto.
    + eapply state_ok; eauto.
    + split.
      * intros ms r Hr. apply (clean_ctor p (r_rule r)); auto. exists c. split; auto. left. exists ms, r. auto.
      * intros m a Ha. apply (clean_ctor p (a_rule a)); auto. exists c. split; auto. right. exists m, a. auto.
  - cbn [em_param em_body emit]. eapply owns_loop with (types := p_types p); eauto.
    + destruct (po_types _ _ _ _ _ Hpo) as (Hl & Hty). rewrite (po_root _ _ _ _ _ Hpo). pose proof (nm_root _ Hnm) as Hr. rewrite (po_root _ _ _ _ _ Hpo) in Hr.
      destruct (nth_error (p_types p) 0) as [ty|] eqn:E; [|apply nth_error_None in E; rewrite (nm_len _ Hnm) in E; lia]. now rewrite (proj1 (Hty 0 ty E) eq_refl).
    + symmetry. exact (nm_len _ Hnm).
    + intros v ty H. apply (in_map fst) in H. rewrite <- Htt, variant_names in H. apply in_map_iff in H as (s & E & Hs). cbn [fst] in E. subst v. apply in_seq in Hs. exists s. rewrite <- (nm_len _ Hnm). split; [lia|reflexivity].
    + intros s Hs. assert (Hi : In (state_action_function_name s) (map f_name (em_fns em))) by (rewrite <- Htt, function_names; apply in_map, in_seq; lia).
      apply in_map_iff in Hi as (f & E & Hi). eauto.
Qed.
End Main.

Section Macro.
Context {span : Type} (call_site : span) (join_spans : span -> span -> option span) (print : list ttree -> string).
Context (lex_error : string -> string) (literal_ok : string -> bool).

Theorem macros_owned {bm : BuildMode} ho fuel ts em d u : orders_ok ho -> reads_as print (trees ts) d -> defaults_bound (d_rules d) ->
  grammar span call_site join_spans print lex_error literal_ok ho fuel ts = Ok (Item span em) \/
  pub_grammar span call_site join_spans print lex_error literal_ok ho fuel ts = Ok (Item span em) ->
  user_part_fits u d -> single_patterns u d -> plain_token_type d -> hygienic_rules (d_rules d) -> well_owned u em.
Proof.
  intros Ho Rd Db H Hfits Hs Hp Hq. apply macros_item in H as [vis H].
  destruct (expand_built _ _ _ _ _ _ _ _ _ _ Ho H) as (d' & p & P & Ne & B & ->).
  destruct (read_complete print _ _ Rd) as (d2 & P2 & Sm). rewrite P in P2. injection P2 as <-.
  destruct Sm as (En & Et & Ee & Er & El). rewrite <- En, <- Et, <- Ee, <- Er.
  destruct (macro_generated print literal_ok ho fuel _ p d Ho Rd Db B) as (gi & Hg).
  apply (main_owned literal_ok gi p u d Hg); auto.
  - intros r Hr. rewrite Er in Hr. destruct (read_types print _ _ _ P Hr) as (ty & E & Sa). exists ty. rewrite El. split; [exact E|].
    unfold same_type in Sa. destruct ty, (pr_type r); cbn in Sa; split; congruence.
  - intros r Hr. rewrite Er in Hr. rewrite El. destruct (d_rules d') as [|r0 rs] eqn:E; [discriminate Hr|]. injection Hr as ->. eapply first_type; eauto.
Qed.
End Macro.
