(** Names in the code emitted for generated programs. *)
From Coq Require Import Arith Bool String Ascii NArith List Lia Permutation.
From Verif Require Import Base.Prelude Spec.Grammar Spec.Values Spec.Substitution Spec.EmittedCode Spec.EmittedNames.
From Verif Require Import Model.IndexedGrammar Model.LRTable Model.TokenTree Model.Terminal Model.Constructor Model.CodeGen Model.Runtime Model.Rust Model.Emit.
From Verif Require Model.TableText Proofs.GrammarText.
From Verif Require Import Proofs.WP Proofs.TableBuild Proofs.GenCode Proofs.GenMain Proofs.Substitution Proofs.EmitRun Proofs.EmitMain.
Import ListNotations.
Open Scope string_scope.
Open Scope list_scope.

#[local] Arguments qualified_enum_variant_name : simpl never.
#[local] Arguments bound_variable_ident : simpl never.
#[local] Arguments state_action_function_name : simpl never.
#[local] Arguments unique_prefixed_ident : simpl never.

Lemma in_without xs l x : In x (without xs l) <-> In x l /\ ~ In x xs.
Proof.
  unfold without. rewrite filter_In, negb_true_iff. split; intros (H & Hn); split; auto.
  - intros Hx. assert (existsb (String.eqb x) xs = true) by (apply existsb_exists; exists x; split; auto using String.eqb_refl). congruence.
  - destruct (existsb (String.eqb x) xs) eqn:He; auto. apply existsb_exists in He as (y & Hy & E). apply String.eqb_eq in E. subst y. contradiction.
Qed.

(** ** What names need of a program *)
Definition clones_bound (m : matcher) (rhs : pat_code) : Prop :=
  match rhs with
  | PClone _ => match m with MSome (PBind _) | MSome (PBindPat _ _) => True | _ => False end
  | PLiteral _ | PVariant _ => True
  | _ => False
  end.

Definition pattern_like (m : matcher) : Prop := match m with MSome (PClone _) => False | _ => True end.

Lemma matcher_pattern literal_ok tt t mode m : mode <> Rhs -> token_matcher literal_ok tt t mode = Ok m -> pattern_like m.
Proof.
  intros Hm. destruct t as [s| |]; cbn [token_matcher]; [|try discriminate; intros H; inversion H; exact I..].
  unfold try_build_matcher, try_build_pattern. destruct tt.
  - destruct (as_literal literal_ok s); cbn [bind]; intros H; inversion H. exact I.
  - unfold as_pattern. destruct (as_ident s); cbn [bind]; intros H; inversion H. destruct (sparen s), mode; try exact I; congruence.
Qed.

Record nameable (p : program) : Prop := mk_nameable {
  nm_len : List.length (p_types p) = List.length (p_states p);
  nm_root : p_root p < List.length (p_states p);
  nm_binds : forall i bs b, pops p i bs -> In b bs -> forall s, In s (b_arms b) -> s < List.length (p_states p);
  nm_token : forall s, pushes_token p s -> s < List.length (p_states p);
  nm_value : forall i from s, pushes_value p i from s -> s < List.length (p_states p) /\ forall s0, In s0 from -> s0 < List.length (p_states p);
  nm_from : forall c ms r arms from s, In c (p_states p) -> In (ms, r) (sc_reduce c) -> r_goto r = GotoMatch arms -> In (from, s) arms -> from <> [];
  nm_ms : forall c ms r, In c (p_states p) -> In (ms, r) (sc_reduce c) -> ms <> [];
  nm_checks : forall c ms, In c (p_states p) -> sc_check c = Some ms -> ms <> [];
  nm_shift : forall c m s rhs, In c (p_states p) -> In (m, s, rhs) (sc_shift c) -> clones_bound m rhs /\ pattern_like m;
  nm_reduce : forall c ms r m, In c (p_states p) -> In (ms, r) (sc_reduce c) -> In m ms -> pattern_like m;
  nm_accept : forall c m a, In c (p_states p) -> sc_accept c = Some (m, a) -> pattern_like m;
  nm_check : forall c ms m, In c (p_states p) -> sc_check c = Some ms -> In m ms -> pattern_like m;
  nm_regular : regular p;
}.

Definition all_some {K V} (m : hash_map K (list V)) : Prop := forall k vs, In (k, vs) m -> vs <> [].

Lemma push_some {K V} `{EqDec K} (k : K) (v : V) m : all_some m -> all_some (hm_push k v m).
Proof.
  induction m as [|[k' vs] m IH]; cbn [hm_push]; intros Hm k0 vs0 Hi.
  - destruct Hi as [Hi|[]]. inversion Hi. discriminate.
  - destruct (eq_dec k k').
    + destruct Hi as [Hi|Hi]; [inversion Hi; intros Hx; now apply app_eq_nil in Hx as [_ ?]|]. apply (Hm k0). now right.
    + destruct Hi as [Hi|Hi]; [inversion Hi; subst; apply (Hm k0); now left|]. apply (IH (fun a b Hab => Hm a b (or_intror Hab)) k0 vs0 Hi).
Qed.

Lemma foldM_inv {E A B} (f : A -> B -> outcome E A) (P : A -> Prop) :
  (forall a b a', P a -> f a b = Ok a' -> P a') -> forall l a a', P a -> foldM f a l = Ok a' -> P a'.
Proof.
  intros Hf l. induction l as [|b l IH]; cbn [foldM]; intros a a' Ha H.
  - inversion H. now subst.
  - destruct (f a b) as [a1| | |] eqn:He; cbn [bind] in H; try discriminate. eapply IH; [|exact H]. eapply Hf; eauto.
Qed.

Lemma generated_nameable {bm : BuildMode} literal_ok gi p : generated (bm := bm) literal_ok gi p -> nameable p.
Proof.
  intros Hgen. destruct (generated_setup literal_ok gi p Hgen) as (F & ks & acts & gts & Hsu & _ & _ & Hpok).
  specialize (Hpok bm p Hgen). destruct (main_types literal_ok gi p Hgen) as (Ht1 & Ht2 & Ht3).
  destruct Hpok as [(Hl1 & _) (Hl2 & Hcode) Hroot]. destruct Hgen as (Hd & ho & Ha & Ho & Hg).
  assert (Hlen : List.length (p_types p) = List.length (p_states p)) by congruence.
  assert (Hlt : forall s ty, nth_error (p_types p) s = Some ty -> s < List.length (p_states p)) by (intros s ty Hs; rewrite <- Hlen; apply nth_error_Some; congruence).
  assert (Hreg : regular p) by (eapply generated_regular; exact Hg).
  unfold generate_parser in Hg. step Hg. step Hg. step Hg. step Hg. inversion Hg; subst p; clear Hg. cbn [p_types p_states p_root] in *.
  constructor; cbn [p_types p_states p_root]; auto.
  - unfold root_state. rewrite Hl2. destruct Hsu as [_ _ _ _ _ Hok _ _].
    destruct (to_root _ _ _ _ _ _ Hok) as (K & HK & _). rewrite (to_states _ _ _ _ _ _ Hok).
    enough (nth_error ks 0 <> None) by (now apply nth_error_Some). congruence.
  - intros i bs b Hp Hb s Hs. destruct (Ht1 i bs Hp) as (r & _ & _ & Hall). destruct (Hall b Hb) as (nd & _ & _ & _ & Hst). destruct (Hst s Hs) as (ty & Hty & _). eauto.
  - intros s Hs. eapply Hlt. exact (Ht2 s Hs).
  - intros i from s Hv. destruct (Ht3 i from s Hv) as (r & ty & _ & _ & Hn & Hf). split; eauto. intros s0 H0. rewrite <- Hlen. auto.
  - intros c ms r arms from s Hc Hr Hgo Hi.
    destruct (mapM_from _ _ _ _ Hx2 Hc) as (q & _ & Hq). unfold generate_state_action_function in Hq.
    step Hq. step Hq. step Hq. step Hq. step Hq. inversion Hq; subst c; clear Hq. cbn [sc_reduce] in Hr.
    unfold reduce_match_and_return in Hx5. destruct (mapM_from _ _ _ _ Hx5 Hr) as ([rid toks] & _ & Hrr).
    step Hrr. step Hrr. step Hrr. destruct x10 as [bs ns]. step Hrr. destruct x10 as [ct gt]. inversion Hrr; subst; clear Hrr. cbn [r_goto] in Hgo. subst gt.
    unfold apply_goto in Hx11. step Hx11. step Hx11. destruct (_ =? 1)%nat; [step Hx11; discriminate|]. inversion Hx11; subst; clear Hx11.
    apply in_map_iff in Hi as ([k vs] & He & Hi). injection He as <- <-. cbn [snd fst] in *. apply (Permutation_in _ (oo_goto _ Ho _ _)) in Hi.
    refine (foldM_inv _ all_some _ _ _ _ _ Hx12 k _ Hi); [|intros ? ? []].
    intros a b a' Haa H. step H. step H. inversion H. now apply push_some.
  - intros c ms r Hc Hr.
    destruct (mapM_from _ _ _ _ Hx2 Hc) as (q & _ & Hq). unfold generate_state_action_function in Hq.
    step Hq. step Hq. step Hq. step Hq. step Hq. inversion Hq; subst c; clear Hq. cbn [sc_reduce] in Hr.
    unfold reduce_match_and_return in Hx5. destruct (mapM_from _ _ _ _ Hx5 Hr) as ([rid toks] & Hin & Hrr).
    step Hrr. step Hrr. step Hrr. destruct x10 as [bs ns]. step Hrr. destruct x10 as [ct gt]. inversion Hrr; subst; clear Hrr.
    apply (Permutation_in _ (oo_reduce _ Ho _ _)) in Hin. unfold build_for_state in Hx3. step Hx3.
    assert (Hs : all_some (reduce_map x3)).
    { refine (foldM_inv _ (fun m => all_some (reduce_map m)) _ _ _ _ _ Hx3); [|intros ? ? []].
      intros a [tk [ns'|rl|]] a' Haa H.
      - inversion H. exact Haa.
      - inversion H. cbn [reduce_map]. now apply push_some.
      - step H. inversion H. exact Haa. }
    specialize (Hs _ _ Hin). intros ->. apply Proofs.GrammarText.mapM_iff in Hx8. inversion Hx8. congruence.
  - intros c ms Hc Hk.
    destruct (mapM_from _ _ _ _ Hx2 Hc) as (q & _ & Hq). unfold generate_state_action_function in Hq.
    step Hq. step Hq. step Hq. step Hq. step Hq. inversion Hq; subst c; clear Hq. cbn [sc_check] in Hk. subst.
    match goal with H : debug_check_token_conflict _ _ _ _ _ = Ok (Some ms) |- _ => unfold debug_check_token_conflict in H; destruct (gi_terminal_type gi); [discriminate H|];
      destruct (filter _ _); [discriminate H|]; step H; injection H as -> end.
    match goal with H : mapM _ (_ :: _) = Ok ms |- _ => apply Proofs.GrammarText.mapM_iff in H; inversion H; congruence end.
  - intros c m s rhs Hc Hi. apply In_nth_error in Hc as (k & Hk). destruct (co_shift _ _ _ _ _ _ (Hcode k c Hk) m s rhs Hi) as (sy & i & pt & _ & _ & H1 & -> & H2).
    split; [|apply (matcher_pattern literal_ok (gi_terminal_type gi) (Token sy) Named); [discriminate|]; cbn [token_matcher]; unfold try_build_matcher; rewrite H1; reflexivity].
    unfold try_build_pattern in H1, H2. destruct (gi_terminal_type gi).
    + destruct (as_literal literal_ok sy); cbn [bind] in *; try discriminate. inversion H2. exact I.
    + unfold as_pattern in *. destruct (as_ident sy); cbn [bind] in *; try discriminate. inversion H1; inversion H2. destruct (sparen sy); exact I.
  - intros c ms r m Hc Hi Hm. apply In_nth_error in Hc as (k & Hk). destruct (co_reduce _ _ _ _ _ _ (Hcode k c Hk) ms r Hi) as (j & _ & _ & Hms).
    destruct (Hms m Hm) as (a & a' & _ & _ & H1). eapply matcher_pattern; [|exact H1]. discriminate.
  - intros c m a Hc Hi. apply In_nth_error in Hc as (k & Hk). destruct (co_accept _ _ _ _ _ _ (Hcode k c Hk) m a Hi) as (_ & -> & _). exact I.
  - intros c ms m Hc Hi Hm. apply In_nth_error in Hc as (k & Hk). destruct (co_check _ _ _ _ _ _ (Hcode k c Hk) ms Hi) as (_ & toks & _ & _ & Hf).
    destruct (Forall2_in_right _ _ _ _ Hf Hm) as (sy & _ & H1). eapply matcher_pattern; [|exact H1]. discriminate.
Qed.

(** ** Syntax *)
Fixpoint token_idents (b : cbody) : list string :=
  match b with
  | CToken t => idents t
  | CGroup _ bs => flat_map token_idents bs
  | CVar _ => []
  end.

Lemma body_idents x : forall b, In x (idents (emit_body b)) -> (exists v, In v (body_vars b) /\ x = bound_variable_ident v) \/ In x (token_idents b).
Proof.
  fix IH 1. intros [t|d bs|i]; cbn [emit_body idents body_vars token_idents]; intros H.
  - now right.
  - clear d. assert (Hl : forall bs, In x (flat_map idents (map emit_body bs)) -> (exists v, In v (flat_map body_vars bs) /\ x = bound_variable_ident v) \/ In x (flat_map token_idents bs)).
    { clear bs H. fix IHl 1. intros [|b bs] H; [destruct H|]. cbn [map flat_map] in *. apply in_app_iff in H as [H|H].
      - destruct (IH b H) as [(v & Hv & E)|Ht]; [left; exists v; split; auto|right]; apply in_app_iff; auto.
      - destruct (IHl bs H) as [(v & Hv & E)|Ht]; [left; exists v; split; auto|right]; apply in_app_iff; auto. }
    exact (Hl bs H).
  - clear IH. destruct H as [<-|[]]. left. exists i. split; [now left|reflexivity].
Qed.

Lemma bodies_idents x bs : In x (flat_map idents (map emit_body bs)) ->
  (exists v, In v (flat_map body_vars bs) /\ x = bound_variable_ident v) \/ In x (flat_map token_idents bs).
Proof.
  intros H. apply in_flat_map in H as (t & Ht & Hx). apply in_map_iff in Ht as (b & <- & Hb).
  destruct (body_idents x b Hx) as [(v & Hv & E)|Hi]; [left; exists v; split; auto|right]; apply in_flat_map; eauto.
Qed.

Lemma substituted_idents nodes ts body : substituted nodes ts body -> forall x, In x (flat_map token_idents body) -> In x (flat_map idents ts).
Proof.
  induction 1 as [|name i ts body H1 H2 IH|text n nd ts body H1 H2 H3 H4 IH|d ts body ts1 body1 H1 IH1 H2 IH2|t ts body H1 H2 H3 IH];
    intros x Hx; cbn [flat_map token_idents app idents number_sign] in *; try apply in_app_iff; try (right; now auto).
  - destruct Hx.
  - auto.
  - apply in_app_iff in Hx as [Hx|Hx]; auto.
  - apply in_app_iff in Hx as [Hx|Hx]; auto.
Qed.

Section Syntax.
Variable g : string.
Variable ty : list ttree.
Variable ety : error_type.
Local Notation state_var := (unique_prefixed_ident "state").

Lemma free_extract b x : In x (free_vars (emit_extract_state g ty b)) -> x = state_var.
Proof.
  unfold emit_extract_state. cbn [free_vars flat_map app]. intros [<-|H]; auto. exfalso. rewrite flat_map_app in H. apply in_app_iff in H as [H|H].
  - apply in_flat_map in H as ([p e] & Ha & Hx). apply in_map_iff in Ha as (s & He & _). cbn [fst snd] in Hx. inversion He; subst; clear He.
    apply in_without in Hx as (H1 & H2). apply H2. destruct H1 as [<-|[]]. destruct (b_destruct b); cbn [binders flat_map app]; now left.
  - cbn [flat_map binders fst snd free_vars without filter app] in H. exact H.
Qed.

Lemma free_binds bs : forall rest x, In x (free_vars (emit_binds g ty bs rest)) ->
  x = state_var \/ In x (free_vars rest) /\ forall b, In b bs -> x <> bound_variable_ident (b_var b).
Proof.
  induction bs as [|b bs IH]; cbn [emit_binds free_vars]; intros rest x H.
  - right. split; [exact H|intros b []].
  - apply in_app_iff in H as [H|H]; [left; eapply free_extract; eassumption|]. apply in_without in H as (H & Hn).
    destruct (IH _ _ H) as [->|(H1 & H2)]; auto. right. split; auto. intros b' [<-|Hb]; auto. intros ->. apply Hn. now left.
Qed.

Lemma free_ctor i c x : In x (free_vars (emit_constructor ety i c)) ->
  (exists v, In v (ctor_vars c) /\ x = bound_variable_ident v) \/ exists body, c = CUser body /\ In x (flat_map token_idents body).
Proof.
  destruct c as [|j|body]; cbn [emit_constructor free_vars flat_map ctor_vars].
  - intros [].
  - intros [<-|[]]. left. exists j. split; [now left|reflexivity].
  - rewrite app_nil_r. intros H. destruct (bodies_idents _ _ H) as [H1|H1]; eauto.
Qed.

Lemma free_goto i c gt rest x : In x (free_vars (emit_goto g ety i c gt rest)) ->
  x = state_var \/ In x (free_vars (emit_constructor ety i c)) \/ In x (free_vars rest).
Proof.
  destruct gt as [s|arms]; cbn [emit_goto free_vars flat_map app]; intros H.
  - destruct H as [<-|H]; auto. rewrite !app_nil_r in H. apply in_app_iff in H. tauto.
  - apply in_app_iff in H as [H|H]; auto. apply in_without in H as (H & Hn). destruct H as [<-|H]; [now left|]. apply in_app_iff in H as [H|H]; auto. rewrite flat_map_app in H. apply in_app_iff in H as [H|H].
    + apply in_flat_map in H as ([p e] & Ha & Hx). apply in_map_iff in Ha as ([from s] & He & _). inversion He; subst; clear He. apply in_without in Hx as (Hx & _).
      cbn [free_vars snd flat_map app] in Hx. destruct Hx as [<-|[<-|[]]]; auto. exfalso. apply Hn. now left.
    + cbn in H. destruct H.
Qed.

(** Constructors in a state's code. *)
Definition state_ctor (c : state_code) (i : nat) (bs : list bind_code) (ct : ctor_code) : Prop :=
  (exists ms rc, In (ms, rc) (sc_reduce c) /\ r_rule rc = i /\ r_binds rc = bs /\ r_ctor rc = ct) \/
  (exists m ac, sc_accept c = Some (m, ac) /\ a_rule ac = i /\ a_binds ac = bs /\ a_ctor ac = ct).

Definition free_ok (c : state_code) (x : string) : Prop :=
  x = state_var \/ exists i bs ct, state_ctor c i bs ct /\ In x (free_vars (emit_constructor ety i ct)) /\
    forall b, In b bs -> x <> bound_variable_ident (b_var b).

Lemma free_others c arm x :
  In arm (map (emit_reduce_arm g ty ety) (sc_reduce c) ++ match sc_accept c with Some a => [emit_accept_arm g ty ety a] | None => [] end ++ emit_return_err) ->
  In x (without (binders (fst arm)) (free_vars (snd arm))) -> free_ok c x.
Proof.
  intros Ha Hx. apply in_without in Hx as (Hx & Hn). apply in_app_iff in Ha as [Ha|Ha]; [|apply in_app_iff in Ha as [Ha|Ha]].
  - apply in_map_iff in Ha as ([ms r] & <- & Hi). cbn [emit_reduce_arm snd] in Hx. destruct (free_binds _ _ _ Hx) as [->|(H1 & H2)]; [now left|].
    destruct (free_goto _ _ _ _ _ H1) as [->|[H3|H3]]; [now left| |destruct H3].
    right. exists (r_rule r), (r_binds r), (r_ctor r). split; [|auto]. left. exists ms, r. auto.
  - destruct (sc_accept c) as [[m a]|] eqn:Hac; [|destruct Ha]. destruct Ha as [<-|[]]. cbn [emit_accept_arm snd] in Hx.
    destruct (free_binds _ _ _ Hx) as [->|(H1 & H2)]; [now left|]. cbn [free_vars flat_map app] in H1. rewrite !app_nil_r in H1.
    destruct H1 as [<-|H1]; [now left|]. right. exists (a_rule a), (a_binds a), (a_ctor a). split; [|auto]. right. exists m, a. auto.
  - exfalso. destruct Ha as [<-|[<-|[]]]; cbn in Hx, Hn.
    + destruct Hx as [<-|[]]. tauto.
    + destruct Hx.
Qed.

Lemma free_check ck rest x : In x (free_vars (emit_check ty ck rest)) -> x = peeked_val_ident \/ In x (free_vars rest).
Proof.
  destruct ck as [ms|]; cbn [emit_check]; auto. cbn [free_vars flat_map]. intros H. apply in_app_iff in H as [H|H]; auto.
  apply in_app_iff in H as [[<-|[]]|H]; auto. apply in_without in H as (H & Hn). destruct H as [<-|[<-|[]]]; [exfalso; apply Hn|]; now left.
Qed.

Lemma free_actions c x : (forall m s rhs, In (m, s, rhs) (sc_shift c) -> clones_bound m rhs) ->
  In x (free_vars (emit_actions g ty ety c)) -> free_ok c x.
Proof.
  intros Hsh. unfold emit_actions. set (others := map _ _ ++ _). assert (Hoth : forall arm y, In arm others -> In y (without (binders (fst arm)) (free_vars (snd arm))) -> free_ok c y)
    by (intros arm y; apply free_others). clearbody others. cbn [free_vars]. intros H. apply in_app_iff in H as [H|H].
  - left. assert (Hf : free_vars emit_peek_next = [state_var]) by (vm_compute; reflexivity). rewrite Hf in H. destruct H as [<-|[]]. reflexivity.
  - apply in_without in H as (H & Hn). destruct (free_check _ _ _ H) as [->|H1]; [exfalso; apply Hn; now left|]. clear H.
    assert (Hp : x <> peeked_val_ident) by (intros ->; apply Hn; now left).
    destruct (sc_shift c) as [|sa shifts] eqn:Hs.
    + cbn [free_vars] in H1. apply in_app_iff in H1 as [[H1|[]]|H1]; [congruence|]. apply in_flat_map in H1 as (arm & Hi & Hx). eauto.
    + rewrite <- Hs in *. cbn [free_vars flat_map app] in H1. destruct H1 as [H1|H1]; [congruence|]. apply in_app_iff in H1 as [H1|H1].
      * apply in_flat_map in H1 as (arm & Hi & Hx). apply in_app_iff in Hi as [Hi|Hi]; [|eauto].
        exfalso. apply in_map_iff in Hi as ([[m s] rhs] & <- & Hi). specialize (Hsh m s rhs Hi). cbn [emit_shift_arm fst snd] in Hx.
        apply in_without in Hx as (Hx & Hb). cbn [free_vars flat_map] in Hx. rewrite app_nil_r in Hx.
        destruct rhs; cbn [clones_bound emit_token free_vars flat_map app] in *; try contradiction; try (now destruct Hx).
        destruct Hx as [<-|[]]. apply Hb. destruct m as [|[]]; try contradiction; cbn; now left.
      * apply in_without in H1 as (H1 & Hn1). destruct H1 as [<-|[<-|[<-|[]]]]; [now left..|]. exfalso. apply Hn1. now left.
Qed.

(** *** Bodies *)
Lemma bodies_extract b vs : bodies vs (emit_extract_state g ty b) = [].
Proof.
  unfold emit_extract_state. cbn [bodies flat_map app]. rewrite flat_map_app. cbn [flat_map bodies snd app]. rewrite app_nil_r.
  induction (b_arms b) as [|s l IH]; auto.
Qed.

Definition bound_names (bs : list bind_code) : list string := map (fun b => bound_variable_ident (b_var b)) bs.

Lemma bodies_binds bs : forall vs rest, bodies vs (emit_binds g ty bs rest) = bodies (rev (bound_names bs) ++ vs) rest.
Proof.
  induction bs as [|b bs IH]; intros vs rest; cbn [emit_binds bodies bound_names map rev app]; auto.
  rewrite bodies_extract, IH. cbn [app]. rewrite <- app_assoc. reflexivity.
Qed.

Lemma bodies_ctor i c vs : bodies vs (emit_constructor ety i c) = match c with CUser body => [(i, vs, map emit_body body)] | _ => [] end.
Proof. destruct c; reflexivity. Qed.

Lemma bodies_goto i c gt rest vs : (forall vs', bodies vs' rest = []) -> bodies vs (emit_goto g ety i c gt rest) = bodies vs (emit_constructor ety i c).
Proof.
  intros Hr. destruct gt as [s|arms]; cbn [emit_goto bodies flat_map app].
  - rewrite Hr, !app_nil_r. reflexivity.
  - rewrite Hr, app_nil_r. replace (flat_map _ _) with (@nil (nat * list string * list ttree)); [apply app_nil_r|].
    rewrite flat_map_app. cbn [flat_map bodies snd app]. rewrite app_nil_r. induction arms; auto.
Qed.

Lemma bodies_others c vs : 
  regular_state c ->
  forall b, In b (flat_map (fun a => bodies (binders (fst a) ++ vs) (snd a))
    (map (emit_reduce_arm g ty ety) (sc_reduce c) ++ match sc_accept c with Some a => [emit_accept_arm g ty ety a] | None => [] end ++ emit_return_err)) ->
  exists i bs body, state_ctor c i bs (CUser body) /\ b = (i, rev (bound_names bs) ++ vs, map emit_body body).
Proof.
  intros [_ Hr Ha] b Hb. apply in_flat_map in Hb as (arm & Hi & Hb). apply in_app_iff in Hi as [Hi|Hi]; [|apply in_app_iff in Hi as [Hi|Hi]].
  - apply in_map_iff in Hi as ([ms r] & <- & Hi). cbn [emit_reduce_arm fst snd] in Hb. rewrite bodies_binds, bodies_goto, bodies_ctor in Hb by reflexivity.
    destruct (r_ctor r) as [| |body] eqn:Hc; try contradiction. destruct Hb as [<-|[]]. exists (r_rule r), (r_binds r), body. split.
    + left. exists ms, r. auto.
    + replace (binders (PtOr (map (emit_matcher ty) ms))) with (@nil string); [reflexivity|]. specialize (fun m => Hr ms r m Hi). clear - Hr. symmetry.
      cbn [binders]. induction ms as [|m ms IH]; auto. cbn [map flat_map]. rewrite IH by (intros; apply Hr; now right).
      assert (Hm : binds_nothing m = true) by (apply Hr; now left). destruct m as [|[]]; try discriminate Hm; reflexivity.
  - destruct (sc_accept c) as [[m a]|] eqn:Hac; [|destruct Hi]. destruct Hi as [<-|[]]. cbn [emit_accept_arm fst snd] in Hb. rewrite bodies_binds in Hb.
    cbn [bodies flat_map app] in Hb. rewrite !app_nil_r, bodies_ctor in Hb. destruct (a_ctor a) as [| |body] eqn:Hc; try contradiction.
    destruct Hb as [<-|[]]. exists (a_rule a), (a_binds a), body. split.
    + right. exists m, a. auto.
    + specialize (Ha m a eq_refl). destruct m as [|[]]; try discriminate Ha; reflexivity.
  - exfalso. destruct Hi as [<-|[<-|[]]]; destruct Hb.
Qed.

Lemma bodies_token t vs : bodies vs (emit_token ty t) = [].
Proof. destruct t; reflexivity. Qed.

Lemma bodies_actions c vs b : regular_state c -> In b (bodies vs (emit_actions g ty ety c)) ->
  exists i bs body, state_ctor c i bs (CUser body) /\ b = (i, rev (bound_names bs) ++ peeked_val_ident :: vs, map emit_body body).
Proof.
  intros Hr. unfold emit_actions. set (others := map _ _ ++ _). assert (Hoth := bodies_others c (peeked_val_ident :: vs) Hr). fold others in Hoth. clearbody others.
  cbn [bodies]. replace (bodies vs emit_peek_next) with (@nil (nat * list string * list ttree)) by reflexivity. cbn [app].
  assert (Hck : forall rest vs, bodies vs (emit_check ty (sc_check c) rest) = bodies vs rest) by (intros; destruct (sc_check c); reflexivity). rewrite Hck. clear Hck.
  destruct (sc_shift c) as [|sa shifts].
  - cbn [bodies app]. apply Hoth.
  - cbn [bodies flat_map app]. rewrite app_nil_r, flat_map_app. intros H. apply in_app_iff in H as [H|H]; [|auto]. exfalso.
    apply in_flat_map in H as (arm & Hi & Hb). apply in_map_iff in Hi as ([[m s] rhs] & <- & Hi). cbn [emit_shift_arm snd fst bodies flat_map] in Hb.
    rewrite bodies_token in Hb. destruct Hb.
Qed.

(** *** Constructors, functions and alternatives *)
Section Resolve.
Variable okc : path -> Prop.
Variable okf : path -> Prop.
Hypothesis Hkc : forall c, In c known_constructors -> okc c.
Hypothesis Hkf : forall f, In f known_functions -> okf f.

Definition okp (p : rpat) : Prop := simple_alternatives p /\ forall c, In c (pattern_constructors p) -> okc c.
Definition fine (e : expr) : Prop := Forall okp (patterns e) /\ Forall okc (built e) /\ Forall okf (called e).

Lemma fine_let x e rest : fine e -> fine rest -> fine (ELet x e rest).
Proof. intros (H1 & H2 & H3) (H4 & H5 & H6). repeat split; cbn [patterns built called]; apply Forall_app; auto. Qed.
Lemma fine_seq e rest : fine e -> fine rest -> fine (ESeq e rest).
Proof. intros (H1 & H2 & H3) (H4 & H5 & H6). repeat split; cbn [patterns built called]; apply Forall_app; auto. Qed.
Lemma fine_debug e rest : fine e -> fine rest -> fine (EDebug e rest).
Proof. intros (H1 & H2 & H3) (H4 & H5 & H6). repeat split; cbn [patterns built called]; apply Forall_app; auto. Qed.
Lemma fine_var x : fine (EVar x).
Proof. repeat split; constructor. Qed.
Lemma fine_con c e : okc c -> fine e -> fine (ECon c [e]).
Proof. intros Hc (H1 & H2 & H3). repeat split; cbn [patterns built called flat_map]; rewrite app_nil_r; auto. Qed.
Lemma fine_push x e : fine e -> fine (EMethod (EVar x) "push" [e]).
Proof. intros (H1 & H2 & H3). repeat split; cbn [patterns built called flat_map app]; rewrite app_nil_r; auto. Qed.
Lemma fine_return e : fine e -> fine (EReturn e).
Proof. intros H. exact H. Qed.
Lemma fine_match e arms : fine e -> (forall p b, In (p, b) arms -> okp p /\ fine b) -> fine (EMatch e arms).
Proof.
  intros (H1 & H2 & H3) Ha. repeat split; cbn [patterns built called]; apply Forall_app; split; auto; apply Forall_flat_map, Forall_forall; intros [p b] Hi;
    destruct (Ha p b Hi) as (Hp & Hf1 & Hf2 & Hf3); cbn [fst snd]; auto.
Qed.

Ltac known := apply Hkc; vm_compute; tauto.

Lemma fine_ctor i c : fine (emit_constructor ety i c).
Proof.
  destruct c as [|j|body]; repeat split; cbn [emit_constructor patterns built called flat_map app]; repeat constructor; try known.
  apply Hkf. vm_compute. tauto.
Qed.

Lemma okp_con c ps : okc c -> (forall p, In p ps -> okp p) -> okp (PtCon c ps).
Proof.
  intros Hc Hp. split; cbn [simple_alternatives pattern_constructors].
  - induction ps as [|p ps IH]; cbn [fold_right]; auto. split; [apply Hp; now left|]. apply IH. intros; apply Hp; now right.
  - intros c' [<-|H]; auto. apply in_flat_map in H as (p & Hi & H). apply (Hp p Hi). exact H.
Qed.
Lemma okp_or ps : ps <> [] -> (forall p, In p ps -> okp p /\ binders p = []) -> okp (PtOr ps).
Proof.
  intros Hn Hp. split; cbn [simple_alternatives pattern_constructors].
  - split; auto. clear Hn. split; induction ps as [|p ps IH]; cbn [flat_map fold_right]; auto.
    + rewrite (proj2 (Hp p (or_introl eq_refl))). apply IH. intros; apply Hp; now right.
    + split; [apply Hp; now left|]. apply IH. intros; apply Hp; now right.
  - intros c' H. apply in_flat_map in H as (p & Hi & H). apply (Hp p Hi). exact H.
Qed.

Lemma okp_pattern pt : pt <> PClone (match pt with PClone n => n | _ => "" end) -> okp (emit_pattern ty pt).
Proof. destruct pt; intros H; try (split; [exact I|intros c []]). congruence. Qed.

Lemma okp_matcher m : pattern_like m -> okp (emit_matcher ty m).
Proof.
  destruct m as [|pt]; cbn [emit_matcher]; intros H.
  - apply okp_con; [known|intros p []].
  - assert (Hp : okp (emit_pattern ty pt)) by (apply okp_pattern; destruct pt; congruence || contradiction).
    destruct pt; try contradiction; (apply okp_con; [known|]); intros p [<-|[]]; exact Hp.
Qed.

Lemma unnamed_ok m : binds_nothing m = true -> pattern_like m -> okp (emit_matcher ty m) /\ binders (emit_matcher ty m) = [].
Proof. intros H Hp. split; [now apply okp_matcher|]; destruct m as [|[]]; try discriminate H; auto. Qed.

Variable n : nat.
Hypothesis Hst : forall s, s < n -> okc (qualified_enum_variant_name g s).

Lemma fine_extract b : (forall s, In s (b_arms b) -> s < n) -> fine (emit_extract_state g ty b).
Proof.
  intros Hb. apply fine_match; [repeat split; constructor|]. intros p e H. apply in_app_iff in H as [H|[H|[]]].
  - apply in_map_iff in H as (s & He & Hs). inversion He; subst; clear He. split; [|apply fine_var].
    destruct (b_destruct b); apply okp_con; auto; intros p [<-|[]]; split; try exact I; intros c [].
  - inversion H; subst. split; [split; [exact I|intros c []]|repeat split; constructor].
Qed.
Lemma fine_binds bs rest : (forall b s, In b bs -> In s (b_arms b) -> s < n) -> fine rest -> fine (emit_binds g ty bs rest).
Proof.
  intros Hb Hr. induction bs as [|b bs IH]; cbn [emit_binds]; auto. apply fine_let.
  - apply fine_extract. intros s. apply Hb. now left.
  - apply IH. intros b' s Hi. apply Hb. now right.
Qed.

Definition goto_in_range (gt : goto_code) : Prop :=
  match gt with
  | GotoOne s => s < n
  | GotoMatch arms => forall from s, In (from, s) arms -> s < n /\ from <> [] /\ forall s0, In s0 from -> s0 < n
  end.
Lemma fine_goto i c gt rest : goto_in_range gt -> fine rest -> fine (emit_goto g ety i c gt rest).
Proof.
  intros Hg Hr. destruct gt as [s|arms]; cbn [emit_goto goto_in_range] in *.
  - apply fine_seq; auto. apply fine_push, fine_con; auto. apply fine_ctor.
  - apply fine_let; [apply fine_ctor|]. apply fine_seq; auto. apply fine_match; [repeat split; constructor|]. intros p e H. apply in_app_iff in H as [H|[H|[]]].
    + apply in_map_iff in H as ([from s] & He & Hi). inversion He; subst; clear He. cbn [fst snd]. destruct (Hg from s Hi) as (H1 & H2 & H3). split.
      * apply okp_or; [destruct from; [congruence|discriminate]|]. intros p Hp. apply in_map_iff in Hp as (s0 & <- & Hs0). split; [|reflexivity].
        split; [exact I|]. intros c' [<-|[]]. auto.
      * apply fine_push, fine_con; auto. apply fine_var.
    + inversion H; subst. split; [split; [exact I|intros c' []]|repeat split; constructor].
Qed.

Record in_range (c : state_code) : Prop := mk_in_range {
  ir_regular : regular_state c;
  ir_binds : forall i bs ct b s, state_ctor c i bs ct -> In b bs -> In s (b_arms b) -> s < n;
  ir_goto : forall ms r, In (ms, r) (sc_reduce c) -> ms <> [] /\ goto_in_range (r_goto r);
  ir_shift : forall m s rhs, In (m, s, rhs) (sc_shift c) -> s < n /\ pattern_like m;
  ir_reduce : forall ms r m, In (ms, r) (sc_reduce c) -> In m ms -> pattern_like m;
  ir_accept : forall m a, sc_accept c = Some (m, a) -> pattern_like m;
  ir_check : forall ms m, sc_check c = Some ms -> In m ms -> pattern_like m;
}.

Lemma okp_var x : okp (PtVar x). Proof. split; [exact I|intros c []]. Qed.

Lemma fine_others c : in_range c -> forall p b,
  In (p, b) (map (emit_reduce_arm g ty ety) (sc_reduce c) ++ match sc_accept c with Some a => [emit_accept_arm g ty ety a] | None => [] end ++ emit_return_err) ->
  okp p /\ fine b.
Proof.
  intros [[_ Hr Ha] Hb Hg _ Hpr Hpa _] p b H. apply in_app_iff in H as [H|H]; [|apply in_app_iff in H as [H|H]].
  - apply in_map_iff in H as ([ms r] & He & Hi). cbn [emit_reduce_arm] in He. inversion He; subst; clear He. destruct (Hg ms r Hi) as (H1 & H2). split.
    + apply okp_or; [destruct ms; [congruence|discriminate]|]. intros p Hp. apply in_map_iff in Hp as (m & <- & Hm). apply unnamed_ok; [eapply Hr|eapply Hpr]; eassumption.
    + apply fine_binds; [|apply fine_goto; auto].
      * intros b s. apply (Hb (r_rule r) (r_binds r) (r_ctor r)). left. exists ms, r. auto.
      * apply fine_return, fine_con; [known|]. repeat split; repeat constructor; known.
  - destruct (sc_accept c) as [[m a]|] eqn:Hac; [|destruct H]. destruct H as [H|[]]. cbn [emit_accept_arm] in H. inversion H; subst; clear H. split.
    + apply unnamed_ok; [eapply Ha|eapply Hpa]; reflexivity.
    + apply fine_binds.
      * intros b s. apply (Hb (a_rule a) (a_binds a) (a_ctor a)). right. exists m, a. auto.
      * apply fine_seq; [repeat split; constructor|]. apply fine_return, fine_con; [known|]. apply fine_con; [known|]. apply fine_ctor.
  - destruct H as [H|[H|[]]]; inversion H; subst; clear H; (split; [apply okp_con; [known|intros p Hp; cbn in Hp; intuition (subst; apply okp_var)]|]);
      repeat split; cbn; repeat constructor; try known; apply Hkf; vm_compute; tauto.
Qed.

Lemma fine_peek : fine emit_peek_next.
Proof.
  repeat split; cbn; repeat constructor; try known; try (cbn; tauto); try (intros c Hc; cbn in Hc; intuition (subst; known)).
Qed.

Lemma fine_check ck rest : (forall ms m, ck = Some ms -> In m ms -> okp (emit_matcher ty m)) -> fine rest -> fine (emit_check ty ck rest).
Proof.
  intros Hc Hr. destruct ck as [ms|]; cbn [emit_check]; auto. apply fine_debug; auto. apply fine_let.
  - repeat split; cbn [patterns built called app]; try constructor. apply Forall_forall. intros p Hp. apply in_map_iff in Hp as (m & <- & Hm). eauto.
  - repeat split; cbn; repeat constructor; try known; apply Hkf; vm_compute; tauto.
Qed.

Lemma fine_token t : fine (emit_token ty t).
Proof. destruct t; repeat split; cbn; constructor. Qed.

Lemma fine_actions c : in_range c -> fine (emit_actions g ty ety c).
Proof.
  intros Hi. unfold emit_actions. pose proof (fine_others c Hi) as Hoth. set (others := map _ _ ++ _) in *. clearbody others.
  apply fine_let; [apply fine_peek|]. apply fine_check; [intros ms m H1 H2; apply okp_matcher; eapply ir_check; eassumption|]. destruct (sc_shift c) as [|sa shifts] eqn:Hs.
  - apply fine_match; auto. apply fine_var.
  - rewrite <- Hs. apply fine_let.
    + apply fine_match; [apply fine_var|]. intros p b H. apply in_app_iff in H as [H|H]; auto. apply in_map_iff in H as ([[m s] rhs] & He & H).
      cbn [emit_shift_arm] in He. inversion He; subst; clear He. destruct (ir_shift _ Hi m s rhs H) as (H1 & H2). split; [apply okp_matcher; auto|].
      apply fine_con; auto. apply fine_token.
    + apply fine_seq; [repeat split; constructor|]. apply fine_seq; [repeat split; constructor|]. apply fine_con; [known|]. repeat split; repeat constructor; known.
Qed.

Lemma fine_loop root : root < n -> (forall s, s < n -> okf [state_action_function_name s]) -> fine (emit_parse_loop g n root).
Proof.
  intros Hr Hf. unfold emit_parse_loop. apply fine_let.
  - repeat split; cbn [patterns built called flat_map app]; repeat constructor; auto. apply Hkf. vm_compute. tauto.
  - enough (H : fine (ELet "action" (ETry (EMatch (EMethod (EVar "state") "state" [])
      (map (fun s => (enum_matcher g s, ECall [state_action_function_name s] [ERefMut (EVar "state")])) (seq 0 n))))
      (EMatch (EVar "action") [(PtCon (p_control "Accept") [PtVar "result"], EReturn (ECon ["Ok"] [EVar "result"])); (PtCon (p_control "Continue") [], EUnit)]))) by exact H.
    apply fine_let.
    + enough (H : fine (EMatch (EMethod (EVar "state") "state" []) (map (fun s => (enum_matcher g s, ECall [state_action_function_name s] [ERefMut (EVar "state")])) (seq 0 n)))) by exact H.
      apply fine_match; [repeat split; constructor|]. intros p b H. apply in_map_iff in H as (s & He & H). apply in_seq in H. inversion He; subst; clear He. split.
      * split; [exact I|]. intros c [<-|[]]. apply Hst. lia.
      * repeat split; cbn [patterns built called flat_map app]; repeat constructor. apply Hf. lia.
    + apply fine_match; [apply fine_var|]. intros p b [H|[H|[]]]; inversion H; subst; clear H; (split; [apply okp_con; [known|]|]).
      * intros p [<-|[]]. apply okp_var.
      * apply fine_return, fine_con; [known|apply fine_var].
      * intros p [].
      * repeat split; constructor.
Qed.
End Resolve.

End Syntax.

(** ** Main *)
Lemma in_enumerate_from {A} (l : list A) : forall k i a, In (i, a) (combine (seq k (List.length l)) l) -> In a l /\ k <= i < k + List.length l.
Proof.
  induction l as [|b l IH]; cbn; intros k i a H; [destruct H|]. destruct H as [H|H]; [inversion H; subst; split; [now left|lia]|].
  destruct (IH _ _ _ H). split; [now right|lia].
Qed.

Lemma map_enumerate {A B} (f : nat -> B) (l : list A) : map (fun e => f (fst e)) (enumerate l) = map f (seq 0 (List.length l)).
Proof.
  unfold enumerate. generalize 0. induction l as [|a l IH]; intros k; auto. cbn. f_equal. apply IH.
Qed.

Lemma NoDup_map_inj {A B} (f : A -> B) l : (forall a b, f a = f b -> a = b) -> NoDup l -> NoDup (map f l).
Proof.
  intros Hf. induction 1 as [|a l Hn _ IH]; cbn; constructor; auto. intros Hi. apply in_map_iff in Hi as (b & He & Hb). apply Hf in He. congruence.
Qed.

Section Complete.
Variable en : enum_item.
Variable g : string.
Variable ty : list ttree.
Variable ety : error_type.

Lemma complete_arms arms : (forall p b, In (p, b) arms -> complete en b) -> fold_right (fun (a : rpat * expr) acc => complete en (snd a) /\ acc) True arms.
Proof.
  induction arms as [|[p b] arms IH]; intros H; [exact I|]. split; [apply (H p); now left|]. apply IH. intros p' b' Hi. apply (H p'). now right.
Qed.
Lemma wild_arms arms (e : expr) : exhaustive en (map fst (arms ++ [(PtWild, e)])).
Proof. left. exists PtWild. split; [|exact I]. rewrite map_app. apply in_app_iff. right. now left. Qed.

Lemma complete_ctor rule c : complete en (emit_constructor ety rule c).
Proof. destruct c; cbn; auto. Qed.

Lemma complete_binds bs rest : complete en rest -> complete en (emit_binds g ty bs rest).
Proof.
  intros Hr. induction bs as [|b bs IH]; [exact Hr|]. cbn [emit_binds complete]. split; [|exact IH]. unfold emit_extract_state. cbn [complete fold_right].
  split; [auto|]. split; [apply wild_arms|]. apply complete_arms. intros p e H. apply in_app_iff in H as [H|[H|[]]]; [|inversion H; exact I].
  apply in_map_iff in H as (s & He & _). inversion He. exact I.
Qed.

Lemma complete_goto rule c go rest : complete en rest -> complete en (emit_goto g ety rule c go rest).
Proof.
  intros Hr. destruct go as [s|arms]; cbn [emit_goto complete fold_right].
  - pose proof (complete_ctor rule c). auto.
  - split; [apply complete_ctor|]. split; [|exact Hr]. split; [auto|]. split; [apply wild_arms|].
    apply complete_arms. intros p e H. apply in_app_iff in H as [H|[H|[]]]; [|inversion H; exact I].
    apply in_map_iff in H as (a & He & _). inversion He. cbn. auto.
Qed.

Lemma complete_others c p b :
  In (p, b) (map (emit_reduce_arm g ty ety) (sc_reduce c) ++ match sc_accept c with Some a => [emit_accept_arm g ty ety a] | None => [] end ++ emit_return_err) ->
  complete en b.
Proof.
  intros H. apply in_app_iff in H as [H|H]; [|apply in_app_iff in H as [H|H]].
  - apply in_map_iff in H as ([ms r] & He & _). cbn [emit_reduce_arm] in He. inversion He. apply complete_binds, complete_goto. cbn. auto.
  - destruct (sc_accept c) as [[m a]|]; [|destruct H]. destruct H as [H|[]]. cbn [emit_accept_arm] in H. inversion H. apply complete_binds.
    cbn [complete fold_right]. pose proof (complete_ctor (a_rule a) (a_ctor a)). auto.
  - destruct H as [H|[H|[]]]; inversion H; cbn; auto.
Qed.

Lemma exhaustive_peeked ps : exhaustive en (map fst (ps ++ emit_return_err)).
Proof.
  right. left. exists [(["None"], 0); (["Some"], 1)]. split; [now left|]. intros c n H. right. rewrite map_app. destruct H as [H|[H|[]]]; inversion H; subst.
  - exists []. split; [apply in_app_iff; right; right; now left|]. auto.
  - exists [PtVar "peeked_token"]. split; [apply in_app_iff; right; now left|]. split; auto. constructor; [exact I|constructor].
Qed.

Lemma complete_peek : complete en emit_peek_next.
Proof.
  cbn [emit_peek_next complete fold_right]. repeat split; auto. right. left. exists [(["Ok"], 1); (["Err"], 1)]. split; [right; now left|].
  intros c n [H|[H|[]]]; inversion H; subst; right.
  - exists [PtVar "token"]. split; [now left|]. split; auto. constructor; [exact I|constructor].
  - exists [PtVar "err"]. split; [right; now left|]. split; auto. constructor; [exact I|constructor].
Qed.

Lemma complete_actions c : (forall m s rhs, In (m, s, rhs) (sc_shift c) -> clones_bound m rhs) -> complete en (emit_actions g ty ety c).
Proof.
  intros Hsh. unfold emit_actions. pose proof (complete_others c) as Hoth. cbn [complete]. split; [exact complete_peek|].
  enough (H : complete en (match sc_shift c with
    | [] => EMatch (EVar peeked_val_ident) (map (emit_reduce_arm g ty ety) (sc_reduce c) ++ match sc_accept c with Some a => [emit_accept_arm g ty ety a] | None => [] end ++ emit_return_err)
    | shifts => ELet "next_state" (EMatch (EVar peeked_val_ident) (map (emit_shift_arm g ty) shifts ++ map (emit_reduce_arm g ty ety) (sc_reduce c) ++ match sc_accept c with Some a => [emit_accept_arm g ty ety a] | None => [] end ++ emit_return_err))
        (ESeq (EMethod (EMethod (EVar (unique_prefixed_ident "state")) "stream_mut" []) "advance" [])
           (ESeq (EMethod (EVar (unique_prefixed_ident "state")) "push" [EVar "next_state"]) (ECon ["Ok"] [ECon (p_control "Continue") []])))
    end)).
  { unfold emit_check. destruct (sc_check c) as [ms|]; [|exact H]. cbn [complete fold_right]. repeat split; auto. }
  destruct (sc_shift c) as [|sa shifts] eqn:Hs.
  - cbn [complete]. split; [exact I|]. split; [|apply complete_arms; exact Hoth]. rewrite app_assoc. apply exhaustive_peeked.
  - rewrite <- Hs in *. cbn [complete fold_right]. split; [|repeat split; auto]. split; [exact I|]. split.
    + rewrite !app_assoc. rewrite <- app_assoc. rewrite app_assoc. apply exhaustive_peeked.
    + apply complete_arms. intros p b H. apply in_app_iff in H as [H|H]; [|now apply (Hoth p)]. apply in_map_iff in H as ([[m s] rhs] & He & H).
      cbn [emit_shift_arm] in He. inversion He; subst; clear He. cbn [complete fold_right]. split; [|exact I].
      specialize (Hsh m s rhs H). destruct rhs; cbn in *; auto; destruct Hsh.
Qed.
End Complete.

Section Main.
Context {bm : BuildMode} (literal_ok : string -> bool) (gi : grammar_info) (p : program).
Hypothesis Hgen : generated (bm := bm) literal_ok gi p.
Variable vis : visibility.
Variable name : string.
Variable ety : error_type.
Variable rt : option (list ttree).
Local Notation em := (emit vis name ety (gi_terminal_type gi) rt p).
Local Notation ty := (inner_type (gi_terminal_type gi)).

Lemma variant_names : map fst (e_variants (em_enum em)) = map enum_variant_name (seq 0 (List.length (p_types p))).
Proof. cbn [em_enum emit emit_enum e_variants]. rewrite map_map. cbn [fst]. apply map_enumerate. Qed.
Lemma function_names : map f_name (em_fns em) = map state_action_function_name (seq 0 (List.length (p_states p))).
Proof. cbn [em_fns emit]. rewrite map_map. cbn [f_name emit_function]. apply map_enumerate. Qed.

Lemma names_distinct :
  e_name (em_enum em) <> em_struct em /\ NoDup (map fst (e_variants (em_enum em))) /\ NoDup (map f_name (em_fns em)) /\
  List.length (e_variants (em_enum em)) = em_table_size em /\ List.length (em_fns em) = em_table_size em.
Proof.
  pose proof (nm_len _ (generated_nameable literal_ok gi p Hgen)) as Hl. rewrite variant_names, function_names. split; [|split; [|split; [|split]]].
  - cbn [e_name em_enum em_struct emit emit_enum]. unfold enum_name. intros He. apply (f_equal String.length) in He.
    clear - He. induction name as [|c n IH]; [discriminate He|cbn in He; apply IH; congruence].
  - apply NoDup_map_inj; [exact variant_inj|apply seq_NoDup].
  - apply NoDup_map_inj; [exact function_inj|apply seq_NoDup].
  - rewrite <- (map_length fst), variant_names, map_length, seq_length. exact Hl.
  - rewrite <- (map_length f_name), function_names, map_length, seq_length. reflexivity.
Qed.

Lemma fns_emitted f : In f (em_fns em) -> exists s c, In c (p_states p) /\ s < List.length (p_states p) /\
  f = emit_function name ty ety (em_value em) s c.
Proof.
  cbn [em_fns emit em_value]. intros H. apply in_map_iff in H as ([s c] & <- & H). unfold enumerate in H. apply in_enumerate_from in H as (Hc & Hs). exists s, c. split; auto. split; auto. lia.
Qed.

Lemma variables_bound :
  (forall f x, In f (em_fns em) -> In x (free_vars (f_body f)) ->
     x = f_param f \/ exists r d ts, In r (gi_rules gi) /\ pr_block r = Some (d, ts) /\ In x (flat_map idents ts)) /\
  (forall x, In x (free_vars (em_body em)) -> x = em_param em).
Proof.
  pose proof (generated_nameable literal_ok gi p Hgen) as Hnm. split.
  - intros f x Hf Hx. destruct (fns_emitted f Hf) as (s & c & Hc & _ & ->). cbn [emit_function f_body f_param] in *.
    destruct (free_actions name ty ety c x) as [->|(i & bs & ct & Hsc & Hx' & Hn)]; [intros; eapply (nm_shift _ Hnm); eassumption|exact Hx|now left|].
    right. destruct Hgen as (Hd & ho & Ha & Ho & Hg).
    assert (Hcons : constructs p i bs ct) by (exists c; split; auto).
    destruct (vars_bound literal_ok gi ho p Ha Ho Hg i bs ct Hcons) as (r & Hr & Hb & Hv & Hinc).
    assert (Hinc' : incl (ctor_vars ct) (map b_var bs)).
    { destruct Hinc as [|(H1 & (ty0 & H2) & H3)]; auto. exfalso. exact (Hd r ty0 (nth_error_In _ _ Hr) H1 H2 H3). }
    destruct (free_ctor _ _ _ _ Hx') as [(v & Hiv & ->)|(body & -> & Hid)].
    + exfalso. apply Hinc' in Hiv. apply in_map_iff in Hiv as (b & <- & Hib). exact (Hn b Hib eq_refl).
    + unfold build_constructor, index in Hb. rewrite Hr in Hb. cbn [bind] in Hb. destruct (pr_block r) as [[d ts]|] eqn:Hbl.
      * destruct (rewrite_total (pr_nodes r) d ts) as [[-> _]|[_ He]]; [|rewrite Hb in He; discriminate].
        apply rewrite_ok in Hb. exists r, Brace, ts. split; [eapply nth_error_In; eassumption|]. split; auto. eapply substituted_idents; eassumption.
      * destruct (pr_type r); [|discriminate]. unfold generate_default_constructor in Hb. destruct (negb _); discriminate.
  - cbn [em_body emit em_param]. unfold emit_parse_loop. cbn [free_vars flat_map app]. intros x [<-|H]; auto. exfalso. apply in_without in H as (H & Hn).
    destruct H as [<-|H]; [apply Hn; now left|]. apply in_app_iff in H as [H|H].
    + apply in_flat_map in H as ([q e] & Hi & Hx). apply in_map_iff in Hi as (s & He & _). inversion He; subst. cbn in Hx. destruct Hx as [<-|[]]. apply Hn. now left.
    + apply in_without in H as (H & Hn'). cbn in H. destruct H as [<-|[]]. apply Hn'. now left.
Qed.

Lemma declared_state s : s < List.length (p_types p) -> declared_constructor (em_enum em) (qualified_enum_variant_name name s).
Proof.
  intros Hs. right. assert (Hi : In (enum_variant_name s) (map fst (e_variants (em_enum em)))) by (rewrite variant_names; apply in_map, in_seq; lia).
  apply in_map_iff in Hi as ([v t] & He & Hi). cbn [fst] in He. subst v. exists (enum_variant_name s), t. split; [exact Hi|reflexivity].
Qed.

Lemma state_in_range c : In c (p_states p) -> in_range (List.length (p_states p)) c.
Proof.
  pose proof (generated_nameable literal_ok gi p Hgen) as Hnm. intros Hc. constructor.
  - exact (nm_regular _ Hnm c Hc).
  - intros i bs ct b s Hs Hb Hi. apply (nm_binds _ Hnm i bs b); auto. exists c. split; auto.
    destruct Hs as [(ms & rc & H1 & H2 & H3 & _)|(m & ac & H1 & H2 & H3 & _)]; [left; exists ms, rc|right; exists m, ac]; auto.
  - intros ms r Hr. split; [eapply (nm_ms _ Hnm); eassumption|]. unfold goto_in_range. destruct (r_goto r) as [s|arms] eqn:Hg.
    + destruct (nm_value _ Hnm (r_rule r) [] s) as (H1 & _); [|exact H1]. exists c, ms, r. rewrite Hg. repeat split; auto.
    + intros from s Hi. destruct (nm_value _ Hnm (r_rule r) from s) as (H1 & H2); [exists c, ms, r; rewrite Hg; repeat split; auto|].
      split; auto. split; auto. eapply (nm_from _ Hnm); eassumption.
  - intros m s rhs Hi. split; [apply (nm_token _ Hnm); exists c, m, rhs; auto|]. eapply (nm_shift _ Hnm); eassumption.
  - intros ms r m Hi Hm. eapply (nm_reduce _ Hnm); eassumption.
  - intros m a Hi. eapply (nm_accept _ Hnm); eassumption.
  - intros ms m Hi Hm. eapply (nm_check _ Hnm); eassumption.
Qed.

Lemma fine_resolves en fns e : fine (declared_constructor en) (declared_function fns) e ->
  resolves en fns e /\ forall q, In q (patterns e) -> simple_alternatives q.
Proof.
  intros (H1 & H2 & H3). rewrite Forall_forall in H1, H2, H3. split.
  - split; [|split]; auto. intros q c Hq. apply (H1 q Hq).
  - intros q Hq. apply (H1 q Hq).
Qed.

Lemma names_resolve :
  (forall f, In f (em_fns em) -> resolves (em_enum em) [] (f_body f) /\ forall q, In q (patterns (f_body f)) -> simple_alternatives q) /\
  resolves (em_enum em) (em_fns em) (em_body em) /\
  (forall v t, In (v, t) (e_variants (em_enum em)) -> In (PtConRest [e_name (em_enum em); v]) (patterns (em_body em))) /\
  (forall f, In f (em_fns em) -> In [f_name f] (called (em_body em))).
Proof.
  pose proof (generated_nameable literal_ok gi p Hgen) as Hnm. pose proof (nm_len _ Hnm) as Hlen. split; [|split; [|split]].
  - intros f Hf. destruct (fns_emitted f Hf) as (s & c & Hc & _ & ->). cbn [emit_function f_body]. apply fine_resolves.
    apply (fine_actions name ty ety _ _) with (n := List.length (p_states p)).
    + intros q Hq. now left.
    + intros q Hq. now left.
    + intros s' Hs'. apply declared_state. lia.
    + now apply state_in_range.
  - refine (proj1 (fine_resolves _ _ _ _)). apply (fine_loop name _ _).
    + intros q Hq. now left.
    + intros q Hq. now left.
    + intros s Hs. apply declared_state. lia.
    + exact (nm_root _ Hnm).
    + intros s Hs. right. assert (Hi : In (state_action_function_name s) (map f_name (em_fns em))) by (rewrite function_names; apply in_map, in_seq; lia).
      apply in_map_iff in Hi as (f & He & Hi). exists f. split; [exact Hi|congruence].
  - intros v t Hv. assert (Hi : In v (map fst (e_variants (em_enum em)))) by (apply in_map_iff; exists (v, t); auto).
    rewrite variant_names in Hi. apply in_map_iff in Hi as (s & <- & Hs). rewrite Hlen in Hs.
    cbn [em_body emit]. unfold emit_parse_loop. cbn [patterns flat_map app]. apply in_app_iff. left. apply in_flat_map.
    exists (enum_matcher name s, ECall [state_action_function_name s] [ERefMut (EVar "state")]). split; [|now left].
    apply in_map_iff. exists s. auto.
  - intros f Hf. assert (Hi : In (f_name f) (map f_name (em_fns em))) by (apply in_map; auto). rewrite function_names in Hi. apply in_map_iff in Hi as (s & <- & Hs).
    cbn [em_body emit]. unfold emit_parse_loop. cbn [called flat_map app]. right. apply in_app_iff. left. apply in_flat_map.
    exists (enum_matcher name s, ECall [state_action_function_name s] [ERefMut (EVar "state")]). split; [|now left].
    apply in_map_iff. exists s. auto.
Qed.

Lemma scopes f i vs ts : In f (em_fns em) -> In (i, vs, ts) (bodies [f_param f] (f_body f)) ->
  exists r, nth_error (gi_rules gi) i = Some r /\ (exists d ts', pr_block r = Some (d, ts')) /\
  forall x, In x vs <-> In x internal_names \/ exists k, In k (node_indices (pr_nodes r)) /\ x = argument_name k.
Proof.
  pose proof (generated_nameable literal_ok gi p Hgen) as Hnm. intros Hf Hb. destruct (fns_emitted f Hf) as (s & c & Hc & _ & ->). cbn [emit_function f_body f_param] in *.
  destruct (bodies_actions name ty ety c _ _ (nm_regular _ Hnm c Hc) Hb) as (j & bs & body & Hsc & He). injection He as -> -> ->.
  destruct Hgen as (Hd & ho & Ha & Ho & Hg). assert (Hcons : constructs p j bs (CUser body)) by (exists c; split; auto).
  destruct (vars_bound literal_ok gi ho p Ha Ho Hg j bs _ Hcons) as (r & Hr & Hbc & Hv & _). exists r. split; auto. split.
  - unfold build_constructor, index in Hbc. rewrite Hr in Hbc. cbn [bind] in Hbc. destruct (pr_block r) as [[d ts]|]; [eauto|].
    destruct (pr_type r); [|discriminate]. unfold generate_default_constructor in Hbc. destruct (negb _); discriminate.
  - intros x. rewrite in_app_iff, <- in_rev. unfold bound_names. split.
    + intros [Hx|[<-|[<-|[]]]]; [|left; now left|left; right; now left]. right. apply in_map_iff in Hx as (b & <- & Hib). exists (b_var b). split; [|reflexivity].
      apply in_rev. rewrite <- Hv. now apply in_map.
    + intros [[<-|[<-|[]]]|(k & Hk & ->)]; [right; now left|right; right; now left|]. left. apply in_rev in Hk. rewrite <- Hv in Hk. apply in_map_iff in Hk as (b & <- & Hib).
      apply in_map_iff. exists b. split; [reflexivity|exact Hib].
Qed.

Lemma code_complete :
  (forall f, In f (em_fns em) -> complete (em_enum em) (f_body f)) /\ complete (em_enum em) (em_body em).
Proof.
  pose proof (generated_nameable literal_ok gi p Hgen) as Hnm. split.
  - intros f Hf. destruct (fns_emitted f Hf) as (s & c & Hc & _ & ->). cbn [emit_function f_body]. apply complete_actions.
    intros m s' rhs Hi. exact (proj1 (nm_shift _ Hnm c m s' rhs Hc Hi)).
  - cbn [em_body emit]. unfold emit_parse_loop. cbn [complete fold_right]. repeat split; auto.
    + right. right. intros v t Hv. left. assert (Hi : In v (map fst (e_variants (em_enum em)))) by (apply in_map_iff; exists (v, t); auto).
      rewrite variant_names in Hi. apply in_map_iff in Hi as (s & <- & Hs). rewrite (nm_len _ Hnm) in Hs.
      rewrite map_map. cbn [fst]. apply in_map_iff. exists s. auto.
    + apply complete_arms. intros q b H. apply in_map_iff in H as (s & He & _). inversion He. cbn. auto.
    + right. left. exists [(p_control "Continue", 0); (p_control "Accept", 1)]. split; [right; right; now left|].
      intros c n [H|[H|[]]]; inversion H; subst; right.
      * exists []. split; [right; now left|]. auto.
      * exists [PtVar "result"]. split; [now left|]. split; auto. constructor; [exact I|constructor].
Qed.
End Main.
