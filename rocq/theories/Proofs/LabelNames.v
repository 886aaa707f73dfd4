(** The emitted code does not depend on the names of the labels. *)
From Coq Require Import Arith Bool String Ascii NArith List Lia.
From Verif Require Import Base.Prelude Spec.Grammar Spec.Renaming Spec.LabelNames Model.Error.
From Verif Require Import Model.BitSet Model.FixedMap Model.Vocabulary Model.IndexedGrammar Model.LRTable Model.StateMap Model.ParseSimulator.
From Verif Require Import Model.TokenTree Model.Terminal Model.Constructor Model.CodeGen Model.Runtime Model.Rust Model.Emit.
From Verif Require Import Model.Symbol Model.FrontEnd Model.Diagnostics Model.Expand.
From Verif Require Import Spec.Macro Spec.Diagnostics Spec.Expansion Spec.Observers Spec.Values.
From Verif Require Import Proofs.Renaming Proofs.ConstructorProofs Proofs.Macro Proofs.ExpandMain.
Import ListNotations.
Open Scope list_scope.

Local Notation any := (fun _ _ => True).

(** ** Constructors *)
Section Ctors.
Variable l : string -> string.
Hypothesis Hl : injective l.

Definition rename_map (m : hash_map string (option nat)) : hash_map string (option nat) := map (fun p => (l (fst p), snd p)) m.

Lemma set_renamed k v m : hm_set (l k) v (rename_map m) = rename_map (hm_set k v m).
Proof.
  induction m as [|[k' v'] m IH]; [reflexivity|]. cbn. destruct (eq_dec (l k) (l k')) as [e|e], (eq_dec k k') as [e'|e']; cbn; auto.
  - apply Hl in e. contradiction.
  - subst. contradiction.
  - f_equal. exact IH.
Qed.

Lemma subst_renamed ns : subst_build (map (rename_pnode l) ns) = mk_subst (rename_map (production_label_map (subst_build ns))) (List.length ns).
Proof.
  unfold subst_build. cbn [production_label_map]. rewrite map_length. f_equal.
  set (step := fun (m : hash_map string (option nat)) (p : nat * pnode) => _).
  enough (G : forall ps m, fold_left step (map (fun p => (fst p, rename_pnode l (snd p))) ps) (rename_map m) = rename_map (fold_left step ps m)).
  { rewrite <- (G _ []). cbn [rename_map map]. f_equal. generalize 0. clear. induction ns as [|n ns IH]; intros k; [reflexivity|]. cbn. f_equal. apply IH. }
  induction ps as [|[i n] ps IH]; intros m; [reflexivity|]. cbn [map fold_left fst snd]. rewrite <- IH. f_equal.
  destruct n as [x|s|]; cbn [rename_pnode step]; try reflexivity. unfold rename_map at 1. rewrite (get_renamed l Hl).
  destruct (hm_get x m); [apply set_renamed|]. unfold rename_map, hm_insert_vacant. rewrite map_app. reflexivity.
Qed.

Section Body.
Variable ns : list pnode.
Let m := subst_build ns.
Let m' := subst_build (map (rename_pnode l) ns).

Lemma at_ident n : orel any eq (substitute_at m ns (Some (TIdent n))) (substitute_at m' (map (rename_pnode l) ns) (Some (TIdent (l n)))).
Proof.
  cbn. unfold lookup_label, m'. rewrite subst_renamed. cbn [production_label_map]. unfold rename_map. rewrite (get_renamed l Hl).
  destruct (hm_get n (production_label_map m)) as [[i|]|] eqn:E; unfold m in E; rewrite E; constructor; auto.
Qed.
Lemma at_other o : (forall n, o <> Some (TIdent n)) -> orel any eq (substitute_at m ns o) (substitute_at m' (map (rename_pnode l) ns) o).
Proof.
  intros H. destruct o as [[d ts|c sp|n|t]|]; try (constructor; auto; fail); [exfalso; now apply (H n)|]. cbn. unfold literal_to_index.
  destruct (parse_usize t) as [i|]; [|constructor; auto]. assert (Hn : num_nodes m' = num_nodes m) by (unfold m', m; cbn; now rewrite map_length).
  rewrite Hn. destruct (N.leb _ _); [constructor; auto|]. unfold index. rewrite nth_error_map. destruct (nth_error ns (N.to_nat i)) as [n|]; cbn; [|constructor].
  destruct n; cbn; constructor; auto.
Qed.

Lemma is_hash t : is_punct t "#" Alone = true -> t = TPunct "#" Alone.
Proof. destruct t as [| c sp | |]; cbn; try discriminate. unfold eqb. destruct (eq_dec c "#"%char) as [->|]; [|discriminate]. destruct (eq_dec sp Alone) as [->|]; [reflexivity|discriminate]. Qed.

Fixpoint tsize (t : ttree) : nat := match t with TGroup _ ts => S ((fix go ts := match ts with [] => 0 | t :: ts => S (tsize t + go ts) end) ts) | _ => 1 end.
Fixpoint bsize (ts : list ttree) : nat := match ts with [] => 0 | t :: ts => S (tsize t + bsize ts) end.
Lemma group_size d ts : tsize (TGroup d ts) = S (bsize ts).
Proof. reflexivity. Qed.
Lemma group_subst mm nn d ts : substitute_tree mm nn (TGroup d ts) = (body <- substitute_vars mm nn ts ;; Ok (CGroup d body)).
Proof. apply substitute_group. Qed.
Lemma group_rename d ts : rename_in_tree l (TGroup d ts) = TGroup d (rename_in_body l ts).
Proof. reflexivity. Qed.

(** What a list of tokens begins with. *)
Lemma body_cases ts : ts = [] \/ (exists n r, ts = TPunct "#" Alone :: TIdent n :: r) \/
  (exists t r, ts = TPunct "#" Alone :: t :: r /\ (forall n, t <> TIdent n) /\ rename_in_body l ts = TPunct "#" Alone :: rename_in_body l (t :: r)) \/
  ts = [TPunct "#" Alone] \/ (exists t r, ts = t :: r /\ is_punct t "#" Alone = false /\ rename_in_body l ts = rename_in_tree l t :: rename_in_body l r).
Proof.
  destruct ts as [|t r]; [auto|]. destruct (is_punct t "#" Alone) eqn:E.
  - apply is_hash in E as ->. destruct r as [|[d ts|c sp|n|x] r]; [auto 6| | |eauto 7|]; right; right; left; eexists _, _; (split; [reflexivity|]); (split; [discriminate|reflexivity]).
  - do 4 right. exists t, r. split; [reflexivity|]. split; [exact E|]. destruct t as [d ts|c sp|n|x]; try reflexivity. cbn in E. cbn [rename_in_body rename_in_tree].
    unfold eqb in E. destruct (eq_dec c "#"%char) as [->|Hc]; [destruct sp; [discriminate|]|].
    + destruct r as [|[]]; reflexivity.
    + destruct sp; destruct c as [[] [] [] [] [] [] [] []]; try reflexivity; try (now contradict Hc); destruct r as [|[]]; reflexivity.
Qed.

Lemma body_renamed k : forall ts, bsize ts < k -> orel any eq (substitute_vars m ns ts) (substitute_vars m' (map (rename_pnode l) ns) (rename_in_body l ts)).
Proof.
  induction k as [|k IH]; [lia|]. intros ts Hk.
  assert (Ht : forall t, tsize t <= k -> orel any eq (substitute_tree m ns t) (substitute_tree m' (map (rename_pnode l) ns) (rename_in_tree l t))).
  { intros [d ts'|c sp|n|x] H; try (constructor; reflexivity). rewrite group_rename, !group_subst. rewrite group_size in H.
    apply orel_bind_eq; [apply IH; lia|]. intros b. constructor; auto. }
  destruct (body_cases ts) as [->|[(n & r & ->)|[(t & r & -> & Hn & ->)|[->|(t & r & -> & E & ->)]]]]; [constructor; auto| | |constructor; auto|].
  - cbn [rename_in_body substitute_vars hd_error]. cbn [bsize tsize] in Hk. replace (is_punct _ _ _) with true by reflexivity.
    apply orel_bind_eq; [apply at_ident|]. intros i. apply orel_bind_eq; [apply IH; cbn; lia|]. intros; constructor; auto.
  - cbn [substitute_vars]. cbn [bsize tsize] in Hk. replace (is_punct _ _ _) with true by reflexivity. cbn [hd_error].
    destruct t as [d ts'|c sp|n|x].
    + cbn [rename_in_body rename_in_tree]. constructor; auto.
    + assert (E : exists t2 r2, rename_in_body l (TPunct c sp :: r) = t2 :: r2 /\ match t2 with TPunct _ _ => True | _ => False end).
      { destruct (body_cases (TPunct c sp :: r)) as [D|[(n & r' & D)|[(t & r' & D & _ & D')|[D|(t & r' & D & _ & D')]]]]; [discriminate| | | |].
        - rewrite D. eexists _, _. split; [reflexivity|exact I].
        - rewrite D'. eexists _, _. split; [reflexivity|]. injection D as -> -> _. exact I.
        - rewrite D. eexists _, _. split; [reflexivity|exact I].
        - rewrite D'. injection D as <- _. eexists _, _. split; [reflexivity|exact I]. }
      destruct E as (t2 & r2 & -> & Et). destruct t2; try contradiction. constructor; auto.
    + exfalso. now apply (Hn n).
    + cbn [rename_in_body rename_in_tree hd_error]. apply orel_bind_eq; [apply at_other; discriminate|]. intros i.
      apply orel_bind_eq; [apply IH; cbn [tsize] in Hk; lia|]. intros; constructor; auto.
  - cbn [substitute_vars]. cbn [bsize] in Hk. rewrite E. replace (is_punct (rename_in_tree l t) "#" Alone) with false by (destruct t; auto).
    apply orel_bind_eq; [apply Ht; lia|]. intros c. apply orel_bind_eq; [apply IH; lia|]. intros; constructor; auto.
Qed.
End Body.

Lemma ctor_renamed rs i : orel any eq (build_constructor rs i) (build_constructor (map (rename_prule l) rs) i).
Proof.
  unfold build_constructor, index. rewrite nth_error_map. destruct (nth_error rs i) as [r|]; [|constructor]. cbn [bind option_map pr_block rename_prule].
  destruct (pr_block r) as [[d ts]|]; cbn [option_map fst snd pr_type rename_prule].
  - unfold rewrite_provided_constructor. destruct (negb _); [constructor; auto|]. apply orel_bind_eq; [|intros; constructor; auto]. cbn [pr_nodes rename_prule].
    eapply body_renamed. apply Nat.lt_succ_diag_r.
  - destruct (pr_type r); [|constructor; auto]. unfold generate_default_constructor. cbn [pr_nodes rename_prule]. rewrite map_length.
    destruct (negb _); constructor; auto.
Qed.
End Ctors.

(** ** Code *)
Section Code.
Context {bm : BuildMode}.
Variable l : string -> string.
Hypothesis Hl : injective l.
Variable literal_ok : string -> bool.
Variable ho : hash_orders.
Variable gi gi' : grammar_info.
Hypothesis Htt : gi_terminal_type gi' = gi_terminal_type gi.
Hypothesis Hty : forall x, hm_get (l x) (gi_label_types gi') = hm_get x (gi_label_types gi).
Hypothesis Hrs : gi_rules gi' = map (rename_prule l) (gi_rules gi).
Hypothesis Hta : gi_table gi' = gi_table gi.
Hypothesis Hir : rules (gi_grammar gi') = rules (gi_grammar gi).
Hypothesis Him : rule_metadata (gi_grammar gi') = map (fun m => IndexedGrammar.mk_meta (start_index m) (end_index m) (l (original_label m))) (rule_metadata (gi_grammar gi)).
Hypothesis Hiv : ivocab (gi_grammar gi') = ivocab (gi_grammar gi).

Lemma orel_any {E E' A} (RE RE' : E -> E' -> Prop) (RA : A -> A -> Prop) m m' : (forall e e', RE e e' -> RE' e e') -> orel RE RA m m' -> orel RE' RA m m'.
Proof. intros H [| | |]; constructor; auto. Qed.
Lemma orel_refl {E A} (m : outcome E A) : orel any eq m m.
Proof. destruct m; constructor; auto. Qed.
Lemma orel_of_eq {E A} (m m' : outcome E A) : m' = m -> orel any eq m m'.
Proof. intros ->. apply orel_refl. Qed.

Lemma type_of k : orel any eq (x <- orig_production_label (gi_grammar gi) k ;; label_type gi x) (x <- orig_production_label (gi_grammar gi') k ;; label_type gi' x).
Proof.
  unfold orig_production_label, index. rewrite Him, nth_error_map. destruct (nth_error (rule_metadata (gi_grammar gi)) k) as [m|]; [|constructor].
  cbn [bind option_map original_label]. unfold label_type. rewrite Hty. apply orel_refl.
Qed.

Lemma actions_of {E} k : state_actions (E := E) (gi_table gi') (gi_grammar gi') k = state_actions (gi_table gi) (gi_grammar gi) k.
Proof. unfold state_actions. now rewrite Hta, Hiv. Qed.
Lemma gotos_of {E} k : goto_actions (E := E) (gi_table gi') (gi_grammar gi') k = goto_actions (gi_table gi) (gi_grammar gi) k.
Proof. unfold goto_actions, all_production_labels, labels_count. now rewrite Hta, Him, map_length. Qed.

Lemma foldM_ext {E S A} (f f' : S -> A -> outcome E S) xs : (forall s a, f' s a = f s a) -> forall s, foldM f' s xs = foldM f s xs.
Proof. intros H. induction xs as [|x xs IH]; intros s; [reflexivity|]. cbn. rewrite H. destruct (f s x); cbn; auto. Qed.

Lemma state_map_of : build_lr_state_map ho gi' = build_lr_state_map ho gi.
Proof.
  unfold build_lr_state_map. f_equal. unfold build_from_lr_table. rewrite Hta.
  destruct (index _ 0); cbn [bind]; auto. destruct (store _ _ _); cbn [bind]; auto.
  rewrite (foldM_ext (map_state (gi_grammar gi) (gi_table gi)) (map_state (gi_grammar gi') (gi_table gi))); [reflexivity|].
  intros s k. unfold map_state. rewrite <- Hta at 1. rewrite actions_of. destruct (state_actions _ _ _); cbn [bind]; auto.
  destruct (foldM _ s _); cbn [bind]; auto. rewrite <- Hta at 1. now rewrite gotos_of.
Qed.

Lemma rule_of k : production_rule (E := gen_error) (gi_grammar gi') k = production_rule (gi_grammar gi) k.
Proof. unfold production_rule. now rewrite Hir. Qed.

Lemma function_of sm k : orel any eq (generate_state_action_function literal_ok ho gi sm k) (generate_state_action_function literal_ok ho gi' sm k).
Proof.
  unfold generate_state_action_function. apply orel_bind_eq; [apply orel_of_eq; unfold build_for_state; now rewrite actions_of|]. intros m.
  apply orel_bind_eq; [apply orel_of_eq; unfold debug_check_token_conflict; now rewrite Htt|]. intros ck.
  apply orel_bind_eq.
  { unfold reduce_match_and_return. apply orel_mapM_eq. intros [i ts]. rewrite Htt, rule_of.
    apply orel_bind_eq; [apply orel_refl|]. intros ms. apply orel_bind_eq; [apply orel_refl|]. intros r. apply orel_bind_eq; [apply orel_refl|]. intros [bs nx].
    apply orel_bind_eq; [|intros [c g]; apply orel_refl]. unfold apply_goto. rewrite Hta, Hrs. apply orel_bind_eq; [apply orel_refl|]. intros gm.
    apply orel_bind_eq; [apply ctor_renamed, Hl|]. intros c. apply orel_refl. }
  intros rd. apply orel_bind_eq.
  { unfold accept_match_and_return. destruct (accept m) as [a|]; [|apply orel_refl]. rewrite Htt, rule_of.
    apply orel_bind_eq; [apply orel_refl|]. intros ms. apply orel_bind_eq; [apply orel_refl|]. intros r. apply orel_bind_eq; [apply orel_refl|]. intros [bs nx].
    apply orel_bind_eq; [apply orel_refl|]. intros _. rewrite Hrs. apply orel_bind_eq; [apply ctor_renamed, Hl|]. intros c. apply orel_refl. }
  intros ac. unfold shift_match_and_yield. rewrite Htt. apply orel_refl.
Qed.

Lemma code_of : orel any eq (generate_parser literal_ok ho gi) (generate_parser literal_ok ho gi').
Proof.
  unfold generate_parser. rewrite state_map_of. apply orel_bind_eq; [apply orel_refl|]. intros sm. apply orel_bind_eq; [apply type_of|]. intros _.
  apply orel_bind_eq.
  { unfold generate_dfa_states. rewrite Hta. apply orel_mapM_eq. intros k. unfold state_payload_type. apply orel_bind_eq; [apply orel_refl|].
    intros [k'|a|]; [apply type_of|rewrite Htt; apply orel_refl|apply orel_refl]. }
  intros ty. rewrite Hta. apply orel_bind_eq; [apply orel_mapM_eq; intros k; apply function_of|]. intros st. apply orel_refl.
Qed.
End Code.

(** ** The macro *)
Section Macro.
Context {bm : BuildMode}.
Variable print : list ttree -> string.
Variable l : string -> string.
Hypothesis Hl : injective l.

(** The types of labels are those of their first rules. *)
Definition rule_types (rs : list prule) (x : string) : option (option (list ttree)) := option_map pr_type (find (fun r => String.eqb (pr_name r) x) rs).

Lemma types_of_rules s d : parse_declarations print s = Ok d -> forall x, hm_get x (d_label_types d) = rule_types (d_rules d) x.
Proof.
  intros H x. apply declarations_sound in H as (xs & _ & ds & F & _ & R & G). rewrite G, R. destruct F as [xn xt xe xd _ _ _ Td _]. clear -Td.
  unfold declared_type, rule_types. induction Td as [|dc ys ds zs Dc Td IH]; [reflexivity|]. destruct Dc as [lb ty alts xl xr y xa z _ _ _ Ha _].
  assert (Ne : exists a al, alts = a :: al) by (destruct Ha; eauto). destruct Ne as (a & al & ->).
  cbn [flat_map find dc_label]. destruct (String.eqb lb x) eqn:E.
  - destruct a as [ns b]. cbn. now rewrite E.
  - rewrite IH. clear -E. cbn [rules_of dc_alts dc_label dc_type]. set (al' := a :: al). clearbody al'. induction al' as [|[ns b] al' IH]; [reflexivity|]. cbn. now rewrite E.
Qed.

Lemma types_renamed s s' d d' : parse_declarations print s = Ok d -> parse_declarations print s' = Ok d' -> relabelled l d d' ->
  forall x, hm_get (l x) (d_label_types d') = hm_get x (d_label_types d).
Proof.
  intros H H' (_ & _ & _ & Hr) x. rewrite (types_of_rules _ _ H), (types_of_rules _ _ H'), Hr. unfold rule_types.
  clear Hr. induction (d_rules d) as [|r rs IH]; [reflexivity|]. cbn. destruct (String.eqb_spec (l (pr_name r)) (l x)) as [e|e], (String.eqb_spec (pr_name r) x) as [e'|e']; auto.
  - apply Hl in e. contradiction.
  - subst. contradiction.
Qed.

Lemma source_renamed rs : map to_lr_production_rule (map (rename_prule l) rs) = rename_grammar (fun x => x) l (map to_lr_production_rule rs).
Proof.
  unfold rename_grammar. rewrite !map_map. apply map_ext. intros r. unfold to_lr_production_rule, rename_rule. cbn. f_equal. rewrite !map_map. apply map_ext.
  intros [x|x|]; reflexivity.
Qed.

Lemma through {A} fuel g (k : indexed_grammar user_symbol string -> lr_table -> outcome front_error A) :
  (ig <- lift_lr (indexed_build fuel g) ;; t <- lift_lr (table_build ig fuel) ;; k ig t) =
  match parser_new fuel g with Ok p => k (pgrammar p) (plr_table p) | Err e => Err (GrammarError e) | Panic w => Panic w | Diverge => Diverge end.
Proof. unfold parser_new. destruct (indexed_build fuel g) as [ig| | |]; cbn; auto. destruct (table_build ig fuel); reflexivity. Qed.

Lemma build_relabelled literal_ok ho fuel ts ts' d d' :
  parse_declarations print (tokenize_from_stream ts) = Ok d -> parse_declarations print (tokenize_from_stream ts') = Ok d' -> relabelled l d d' ->
  orel any eq (build_grammar print literal_ok ho fuel ts) (build_grammar print literal_ok ho fuel ts').
Proof.
  intros H H' Hr. pose proof (types_renamed _ _ _ _ H H' Hr) as Hty. destruct Hr as (Hn & Ht & He & Hrs).
  unfold build_grammar, parse_grammar. rewrite H, H'. cbn [bind]. rewrite Hrs, source_renamed, !through.
  pose proof (renamed_parser (fun x : user_symbol => x) l (fun x y e => e) Hl fuel (map to_lr_production_rule (d_rules d))) as P.
  destruct P as [[g0 t0] p' ->|e e' _|w|]; cbn [map_err bind pgrammar plr_table]; [|constructor; auto..].
  assert (C : orel any eq (generate_parser literal_ok ho (mk_grammar_info (d_terminal_type d) (d_label_types d) (d_rules d) g0 t0))
    (generate_parser literal_ok ho (mk_grammar_info (d_terminal_type d') (d_label_types d') (d_rules d') (rename_ig (fun x => x) l g0) t0))).
  { apply (code_of l Hl); cbn; auto. unfold rename_vocab. destruct (ivocab g0) as [tm im]. cbn. f_equal; [|apply map_id].
    rewrite <- (map_id tm) at 2. apply map_ext. intros [a b]; reflexivity. }
  rewrite Hrs in C. destruct C as [p p' ->|e e' _|w|]; constructor; auto.
Qed.

Theorem expand_relabelled (span : Type) (call_site : span) join_spans lex_error literal_ok ho : orders_ok ho ->
  forall ts ts' d d', parse_declarations print (tokenize_from_stream (trees ts)) = Ok d -> parse_declarations print (tokenize_from_stream (trees ts')) = Ok d' -> relabelled l d d' ->
  forall fuel vis,
  match or_abort span (sp_build_grammar span call_site join_spans print lex_error literal_ok ho fuel ts vis), or_abort span (sp_build_grammar span call_site join_spans print lex_error literal_ok ho fuel ts' vis) with
  | Ok (Item _ em), Ok (Item _ em') => em' = em
  | Ok (CompileError _ _), Ok (CompileError _ _) => True
  | Panic w, Panic w' => w' = w
  | Diverge, Diverge => True
  | _, _ => False
  end.
Proof.
  intros Ho ts ts' d d' H H' Hr fuel vis.
  pose proof (build_relabelled literal_ok ho fuel _ _ _ _ H H' Hr) as B.
  pose proof (expand_same call_site join_spans print lex_error literal_ok ho fuel ts vis Ho) as S.
  pose proof (expand_same call_site join_spans print lex_error literal_ok ho fuel ts' vis Ho) as S'.
  destruct B as [p p' ->|e e' _|w|];
    destruct (sp_build_grammar _ _ _ _ _ _ ho fuel ts vis), (sp_build_grammar _ _ _ _ _ _ ho fuel ts' vis); try destruct e; try destruct e'; try contradiction; cbn [or_abort]; auto.
  - destruct S as (d1 & E1 & _ & ->), S' as (d2 & E2 & _ & ->). rewrite H in E1. rewrite H' in E2. injection E1 as <-. injection E2 as <-.
    destruct Hr as (-> & -> & -> & ->). f_equal. destruct (d_rules d) as [|r rs]; [reflexivity|]. reflexivity.
  - now subst.
Qed.

Theorem macro_relabelled (span : Type) (call_site : span) join_spans lex_error literal_ok ho : orders_ok ho ->
  forall ts ts' d d', parse_declarations print (tokenize_from_stream (trees ts)) = Ok d -> parse_declarations print (tokenize_from_stream (trees ts')) = Ok d' -> relabelled l d d' ->
  forall fuel macro, macro = Expand.grammar span call_site join_spans print lex_error literal_ok ho fuel \/ macro = pub_grammar span call_site join_spans print lex_error literal_ok ho fuel ->
  match macro ts, macro ts' with
  | Ok (Item _ em), Ok (Item _ em') => em' = em
  | Ok (CompileError _ _), Ok (CompileError _ _) => True
  | Panic w, Panic w' => w' = w
  | Diverge, Diverge => True
  | _, _ => False
  end.
Proof.
  intros Ho ts ts' d d' H H' Hr fuel macro [->| ->]; [apply (expand_relabelled span call_site join_spans lex_error literal_ok ho Ho ts ts' d d' H H' Hr fuel Private)|
    apply (expand_relabelled span call_site join_spans lex_error literal_ok ho Ho ts ts' d d' H H' Hr fuel Public)].
Qed.
End Macro.
