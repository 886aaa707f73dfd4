(** The macro as a whole: from tokens to the generated parser. *)
From Coq Require Import Arith Bool String Ascii List Lia.
From Verif Require Import Base.Prelude Spec.Grammar Spec.Validity Spec.Nullable Spec.LR1 Spec.Observers Model.Error.
From Verif Require Import Model.IndexedGrammar Model.LRTable Model.ParseSimulator.
From Verif Require Import Model.TokenTree Model.Terminal Model.Constructor Model.CodeGen Model.Runtime Model.Symbol Model.FrontEnd.
From Verif Require Import Spec.Values Spec.Macro Spec.MacroPanic Proofs.WP Proofs.IndexedFinal Proofs.ParserFinal Proofs.LR1Final.
From Verif Require Import Proofs.ItemSets Proofs.GenCode Proofs.GenFinal Proofs.GenMain Proofs.Macro Proofs.MacroTotal.
Import ListNotations.
Open Scope string_scope.
Open Scope list_scope.

(** ** Tokens *)

Lemma consume_clean b t b' e : consume_next_token b t = (b', Err e) -> e <> DifferentReturnTypes.
Proof.
  destruct t as [d ts|c sp|n|t]; cbn [consume_next_token]; intro H.
  - destruct d; simpl in H; congruence.
  - unfold consume_next in H. destruct b; repeat (destruct (eqb c _); try congruence); destruct sp; congruence.
  - unfold from_ident in H. destruct string_is_identifier; simpl in H; congruence.
  - unfold from_literal in H. destruct (prefix "'" t); [simpl in H; congruence|]. destruct string_is_identifier; simpl in H; congruence.
Qed.

Lemma tokenize_clean ts : forall b, clean (tokenize b ts).
Proof.
  induction ts as [|t ts IH]; intro b; cbn [tokenize]; [intros []|].
  destruct (consume_next_token b t) as [b' r] eqn:E. destruct r as [[s|]|e|why|]; try apply IH.
  - intros [K|K]; [discriminate|]. now apply (IH b').
  - intros [K|K]; [|now apply (IH b')]. injection K as ->. now apply consume_clean in E.
Qed.

(** What names can look like. *)
Definition named (x : sym) : Prop :=
  match sym_type x with
  | SIdent n => string_is_identifier n = true
  | SLiteral t => character t
  | _ => True
  end.

Lemma consume_named b t b' x : consume_next_token b t = (b', Ok (Some x)) -> named x.
Proof.
  destruct t as [d ts|c sp|n|t]; cbn [consume_next_token]; intro H.
  - destruct d; simpl in H; try congruence; injection H as _ <-; exact I.
  - unfold consume_next in H.
    destruct b; repeat (destruct (eqb c _); try congruence); try destruct sp; try congruence; injection H as _ <-; exact I.
  - unfold from_ident in H. destruct string_is_identifier eqn:E; simpl in H; [|congruence]. injection H as _ <-. exact E.
  - unfold from_literal in H. destruct (prefix "'" t) eqn:P.
    + simpl in H. injection H as _ <-. now apply quote_ok in P.
    + destruct string_is_identifier eqn:E; simpl in H; [|congruence]. injection H as _ <-. exact E.
Qed.

Lemma tokenize_named ts : forall b x, In (inl x) (tokenize b ts) -> named x.
Proof.
  induction ts as [|t ts IH]; intros b x; cbn [tokenize]; [intros []|].
  destruct (consume_next_token b t) as [b' r] eqn:E. destruct r as [[s|]|e|why|]; try apply IH.
  - intros [K|K]; [|now apply (IH b')]. injection K as ->. now apply consume_named in E.
  - intros [K|K]; [discriminate|]. now apply (IH b').
Qed.

Lemma tokenize_prefix ts xs s : well_spaced ts -> tokenize_from_stream ts = map inl xs ++ s ->
  exists ts1 ts2, ts = ts1 ++ ts2 /\ symbols_of ts1 xs.
Proof.
  intros W E.
  assert (K : exists ys q, tokenize_from_stream ts = map inl ys ++ q /\ Forall symbol_ok ys /\ (exists r, ts = flat_map sym_meta ys ++ r) /\
    forall x q', q <> inl x :: q').
  { unfold tokenize_from_stream. destruct (tokenize_spec ts W) as (ys & F & [[E2 K]|(bad & e & q & E2 & B & K)]).
    - exists ys, []. rewrite app_nil_r. repeat split; auto; [exists []; now rewrite app_nil_r|discriminate].
    - exists ys, (inr e :: q). repeat split; eauto. discriminate. }
  destruct K as (ys & q & E' & F & [r ->] & N). rewrite E in E'. clear E W.
  assert (P : exists zs, ys = xs ++ zs).
  { clear F. revert ys E'. induction xs as [|x xs IH]; intros ys E'; [exists ys; reflexivity|]. destruct ys as [|y ys].
    - cbn [map app] in E'. subst q. now destruct (N x (map inl xs ++ s)).
    - injection E' as -> E'. apply IH in E' as [zs ->]. exists zs. reflexivity. }
  destruct P as [zs ->]. rewrite flat_map_app, <- app_assoc. exists (flat_map sym_meta xs), (flat_map sym_meta zs ++ r).
  split; auto. apply Forall_app in F as [F _]. split; auto.
Qed.

Lemma tokenize_app ts1 ts2 xs : symbols_of ts1 xs ->
  tokenize_from_stream (ts1 ++ ts2) = map inl xs ++ tokenize_from_stream ts2.
Proof. intros [F <-]. now apply tokenize_symbols. Qed.

(** ** Declarations *)
Section Main.
Context {bm : BuildMode}.
Variable print : list ttree -> string.
Local Notation parse_declarations := (parse_declarations print).

Lemma read_total ts : (exists d, parse_declarations (tokenize_from_stream ts) = Ok d) \/
  exists e, parse_declarations (tokenize_from_stream ts) = Err e.
Proof.
  pose proof (declarations_total print (tokenize_from_stream ts) (tokenize_clean ts PBEmpty)) as H.
  destruct (parse_declarations (tokenize_from_stream ts)); eauto; tauto.
Qed.

Lemma read_sound ts d : well_spaced ts -> parse_declarations (tokenize_from_stream ts) = Ok d -> reads_as print ts d.
Proof.
  intros W H. apply declarations_sound in H as (xs & E & D). exists xs. split; auto. now apply tokenize_ok.
Qed.

Lemma read_complete ts d : reads_as print ts d ->
  exists d', parse_declarations (tokenize_from_stream ts) = Ok d' /\ same_declarations d d'.
Proof.
  intros (xs & S & D). rewrite (tokenize_of_symbols ts xs S). apply declarations_complete in D as (m & P & G).
  eexists. split; [exact P|]. repeat split. intro l. cbn. now rewrite G.
Qed.

Lemma same_reads ts d d' : same_declarations d d' -> reads_as print ts d' -> reads_as print ts d.
Proof.
  intros (En & Et & Ee & Er & El) (xs & S & ds & F & O & R & G). exists xs. split; auto. exists ds.
  rewrite En, Et, Ee, Er. split; [exact F|]. split; [exact O|]. split; [exact R|]. intro l. now rewrite El.
Qed.

Lemma read_exact ts d : well_spaced ts ->
  (exists d', parse_declarations (tokenize_from_stream ts) = Ok d' /\ same_declarations d d') <-> reads_as print ts d.
Proof.
  intro W. split.
  - intros (d' & P & S). eapply same_reads; [exact S|]. now apply read_sound.
  - apply read_complete.
Qed.

Lemma read_unique ts d1 d2 : reads_as print ts d1 -> reads_as print ts d2 -> same_declarations d1 d2.
Proof.
  intros H1 H2. apply read_complete in H1 as (d & P1 & S1). apply read_complete in H2 as (d' & P2 & S2).
  rewrite P1 in P2. injection P2 as <-. destruct S1 as (A1 & A2 & A3 & A4 & A5), S2 as (B1 & B2 & B3 & B4 & B5).
  repeat split; try congruence.
Qed.

Lemma conflict_exact ts : well_spaced ts ->
  parse_declarations (tokenize_from_stream ts) = Err DifferentReturnTypes <->
  exists ts1 ts2 xs, ts = ts1 ++ ts2 /\ symbols_of ts1 xs /\ conflict_syms print xs.
Proof.
  intro W. split.
  - intro H. pose proof (declarations_total print (tokenize_from_stream ts) (tokenize_clean ts PBEmpty)) as K. rewrite H in K.
    destruct K as (xs & s & E & C). apply tokenize_prefix in E as (ts1 & ts2 & -> & S); auto. eauto 10.
  - intros (ts1 & ts2 & xs & -> & S & C). rewrite (tokenize_app _ _ _ S). now apply declarations_conflict.
Qed.

(** *** What is known of the rules *)

Lemma nodes_in ns xs : nodes_syms print ns xs -> forall n, In n ns -> exists ys, node_syms print n ys /\ incl ys xs.
Proof.
  induction 1 as [|n xs ns ys N M IH]; intros n' H; [destruct H|]. destruct H as [<-|H].
  - exists xs. split; auto. now apply incl_appl, incl_refl.
  - apply IH in H as (zs & K & I). exists zs. split; auto. now apply incl_appr.
Qed.

Lemma alts_in al xs : alts_syms print al xs -> forall a, In a al -> exists ys, alt_syms print a ys /\ incl ys xs.
Proof.
  induction 1 as [a xs A|a xs x a' al ys A Tx Al IH]; intros b H.
  - destruct H as [<-|[]]. exists xs. split; auto. apply incl_refl.
  - destruct H as [<-|H].
    + exists xs. split; auto. now apply incl_appl, incl_refl.
    + apply IH in H as (zs & K & I). exists zs. split; auto. apply incl_appr. now apply incl_tl.
Qed.

Lemma decls_in ds xs : declarations_syms print ds xs -> forall d, In d ds -> exists ys, declaration_syms print d ys /\ incl ys xs.
Proof.
  induction 1 as [|d xs ds ys D Ds IH]; intros d' H; [destruct H|]. destruct H as [<-|H].
  - exists xs. split; auto. now apply incl_appl, incl_refl.
  - apply IH in H as (zs & K & I). exists zs. split; auto. now apply incl_appr.
Qed.

Lemma rule_in ds xs r : declarations_syms print ds xs -> In r (flat_map rules_of ds) ->
  exists d ys, In d ds /\ pr_name r = dc_label d /\ pr_type r = dc_type d /\ alt_syms print (pr_nodes r, pr_block r) ys /\ incl ys xs.
Proof.
  intros Ds H. apply in_flat_map in H as (d & Hd & H). unfold rules_of in H. apply in_map_iff in H as ([ns b] & <- & Ha).
  destruct (decls_in _ _ Ds d Hd) as (ys & D & I1). destruct D as [label ty al xl xt x xa y Tl Rt Tx Al Ty].
  cbn [dc_alts dc_label dc_type] in *. destruct (alts_in _ _ Al _ Ha) as (zs & A & I2).
  exists (mk_declaration label ty al), zs. repeat split; auto. intros z Hz. apply I1. apply in_app_iff. right. apply in_app_iff. right.
  right. apply in_app_iff. left. auto.
Qed.

(** Every rule read. *)
Lemma read_rules s d : parse_declarations s = Ok d -> exists ds,
  one_type_each print ds /\ (forall l, hm_get l (d_label_types d) = declared_type ds l) /\
  forall r, In r (d_rules d) -> exists dc ys, In dc ds /\ pr_name r = dc_label dc /\ pr_type r = dc_type dc /\
    alt_syms print (pr_nodes r, pr_block r) ys /\ forall y, In y ys -> In (inl y) s.
Proof.
  intro H. apply declarations_sound in H as (xs & -> & ds & F & O & R & G). exists ds. split; auto. split; auto.
  intros r Hr. rewrite R in Hr. destruct F as [xn xt xe xd Tn Tt Te Td Ne].
  destruct (rule_in _ _ _ Td Hr) as (dc & ys & H1 & H2 & H3 & H4 & H5). exists dc, ys. repeat split; auto.
  intros y Hy. apply in_map. repeat (apply in_app_iff; right). auto.
Qed.

Lemma alt_rule ns b ys : alt_syms print (ns, b) ys -> ns <> [] /\ (In PNEpsilon ns -> ns = [PNEpsilon]) /\
  forall n, In n ns -> exists zs, node_syms print n zs /\ incl zs ys.
Proof.
  intro A. inversion A; subst. repeat split; auto. intros n Hn. destruct (nodes_in _ _ H2 n Hn) as (zs & N & I).
  exists zs. split; auto. now apply incl_appl.
Qed.

Lemma read_epsilon s d r : parse_declarations s = Ok d -> In r (d_rules d) ->
  pr_nodes r <> [] /\ (In PNEpsilon (pr_nodes r) -> pr_nodes r = [PNEpsilon]).
Proof.
  intros H Hr. apply read_rules in H as (ds & _ & _ & H). destruct (H r Hr) as (dc & ys & _ & _ & _ & A & _).
  apply alt_rule in A as (A1 & A2 & _). auto.
Qed.

Lemma read_types s d r : parse_declarations s = Ok d -> In r (d_rules d) ->
  exists ty, hm_get (pr_name r) (d_label_types d) = Some ty /\ same_type print ty (pr_type r).
Proof.
  intros H Hr. apply read_rules in H as (ds & O & G & H). destruct (H r Hr) as (dc & ys & Hd & En & Et & _ & _).
  rewrite G, En, Et. destruct (declared_type_in ds dc Hd) as (d' & Hd' & L & ->). exists (dc_type d'). split; auto.
Qed.

Lemma read_one_type s d r1 r2 : parse_declarations s = Ok d -> In r1 (d_rules d) -> In r2 (d_rules d) -> pr_name r1 = pr_name r2 ->
  same_type print (pr_type r1) (pr_type r2).
Proof.
  intros H H1 H2 E. apply read_rules in H as (ds & O & _ & H).
  destruct (H r1 H1) as (c1 & _ & K1 & E1 & T1 & _). destruct (H r2 H2) as (c2 & _ & K2 & E2 & T2 & _).
  rewrite T1, T2. apply O; auto. congruence.
Qed.

Lemma no_eos_source rules : no_eos (source rules).
Proof.
  intros r Hr Hin. unfold source in Hr. apply in_map_iff in Hr as (pr & <- & _). simpl in Hin.
  apply in_map_iff in Hin as ([l|s|] & E & _); discriminate.
Qed.

(** Terminals read from tokens are identifiers or characters; only identifiers
    have arguments. *)
Lemma read_names ts d s : parse_declarations (tokenize_from_stream ts) = Ok d -> terminal_in (d_rules d) s ->
  string_is_identifier (sname s) = true \/ sparen s = PGNone /\ character (sname s).
Proof.
  intros H (r & Hr & Hs). apply read_rules in H as (ds & _ & _ & H). destruct (H r Hr) as (_ & ys & _ & _ & _ & A & I).
  apply alt_rule in A as (_ & _ & A). destruct (A _ Hs) as (zs & N & I2).
  assert (K : forall z, In z zs -> named z).
  { intros z Hz. apply (tokenize_named ts PBEmpty). apply I. now apply I2. }
  inversion N; subst; split_types; (assert (Hx : named x) by (apply K; simpl; auto)); unfold named in Hx; rewrite T in Hx; auto.
Qed.

(** ** The grammar *)

Lemma parse_grammar_new fuel s : parse_grammar print fuel s =
  (d <- parse_declarations s ;;
   p <- lift_lr (parser_new fuel (source (d_rules d))) ;;
   Ok (d_name d, d_error_type d, mk_grammar_info (d_terminal_type d) (d_label_types d) (d_rules d) (pgrammar p) (plr_table p))).
Proof.
  unfold parse_grammar, parser_new. destruct (parse_declarations s) as [d| | |]; cbn [bind]; auto. fold (source (d_rules d)).
  destruct (indexed_build fuel (source (d_rules d))) as [ig| | |]; cbn [bind lift_lr]; auto.
  destruct (table_build ig fuel) as [t| | |]; reflexivity.
Qed.

Lemma grammar_parts fuel s n et gi : parse_grammar print fuel s = Ok (n, et, gi) -> exists d,
  parse_declarations s = Ok d /\ gi_terminal_type gi = d_terminal_type d /\ gi_label_types gi = d_label_types d /\
  gi_rules gi = d_rules d /\ n = d_name d /\ et = d_error_type d /\
  indexed_build fuel (source (d_rules d)) = Ok (gi_grammar gi) /\ table_build (gi_grammar gi) fuel = Ok (gi_table gi).
Proof.
  unfold parse_grammar. destruct (parse_declarations s) as [d| | |] eqn:P; try discriminate. cbn [bind]. fold (source (d_rules d)).
  destruct (indexed_build fuel (source (d_rules d))) as [ig| | |] eqn:I; try discriminate. cbn [bind lift_lr].
  destruct (table_build ig fuel) as [t| | |] eqn:T; try discriminate. cbn [bind lift_lr].
  intro E. injection E as <- <- <-. exists d. cbn. repeat split; auto.
Qed.

Lemma grammar_accepted fuel s n et gi : parse_grammar print fuel s = Ok (n, et, gi) -> accepted gi.
Proof.
  intro H. apply grammar_parts in H as (d & P & Et & El & Er & _ & _ & I & T). constructor; try rewrite Er; try rewrite El; eauto.
  - intros r Hr. now apply (read_epsilon s d r P).
  - intros r Hr. destruct (read_types s d r P Hr) as (ty & K & _). eauto.
Qed.

Lemma used_labels fuel s n et gi l : parse_grammar print fuel s = Ok (n, et, gi) ->
  (exists r, In r (gi_rules gi) /\ In (PNProduction l) (pr_nodes r)) -> exists r, In r (gi_rules gi) /\ pr_name r = l.
Proof.
  intros H (r & Hr & Hl). apply grammar_parts in H as (d & P & Et & El & Er & _ & _ & I & T).
  assert (V : valid_grammar (source (d_rules d))).
  { now apply build_indexes in I. }
  destruct V as (root & rest & _ & _ & Ld & _). rewrite Er in *.
  destruct (Ld (to_lr_production_rule r) l) as (r' & Hr' & Es).
  - now apply in_map.
  - unfold uses. simpl. apply in_map_iff. exists (PNProduction l). auto.
  - unfold source in Hr'. apply in_map_iff in Hr' as (pr & <- & Hpr). exists pr. auto.
Qed.

Lemma root_decidable rules : root_unused rules \/ exists r, nth_error rules 0 = Some r /\ In (PNProduction (pr_name r)) (pr_nodes r).
Proof.
  unfold root_unused. destruct (nth_error rules 0) as [r|]; [|left; discriminate].
  destruct (existsb (fun n => match n with PNProduction l => String.eqb l (pr_name r) | _ => false end) (pr_nodes r)) eqn:E.
  - right. exists r. split; auto. apply existsb_exists in E as ([l|s|] & H & E); try discriminate. apply String.eqb_eq in E. now subst.
  - left. intros r' K H. injection K as <-. assert (E' : existsb (fun n => match n with PNProduction l => String.eqb l (pr_name r) | _ => false end) (pr_nodes r) = true).
    { apply existsb_exists. exists (PNProduction (pr_name r)). split; auto. apply String.eqb_refl. }
    congruence.
Qed.

Lemma root_source rules : root_unused rules -> forall r, nth_error (source rules) 0 = Some r -> ~ uses r (symbol r).
Proof.
  intros H r Hr U. unfold source in Hr. rewrite nth_error_map in Hr. destruct (nth_error rules 0) as [pr|] eqn:E; [|discriminate].
  injection Hr as <-. unfold uses in U. simpl in U. apply in_map_iff in U as ([l|s|] & K & Hin); try discriminate.
  injection K as ->. now apply (H pr E).
Qed.

(** With enough fuel the front end returns; it panics only if the first rule
    mentions its own label. *)
Lemma grammar_total s : clean s -> exists N, forall fuel, N < fuel ->
  match parse_grammar print fuel s with
  | Diverge => False
  | Panic _ => exists d r, parse_declarations s = Ok d /\ nth_error (d_rules d) 0 = Some r /\ In (PNProduction (pr_name r)) (pr_nodes r)
  | _ => True
  end.
Proof.
  intro C. pose proof (declarations_total print s C) as H.
  destruct (parse_declarations s) as [d|e|why|] eqn:P; try tauto.
  - destruct (parser_new_total (source (d_rules d))) as (N & HN). exists N. intros fuel Hf. specialize (HN fuel Hf).
    rewrite parse_grammar_new, P. cbn [bind].
    destruct (parser_new fuel (source (d_rules d))) as [p|e|why|]; cbn [bind lift_lr]; auto.
    destruct (root_decidable (d_rules d)) as [K|(r & K1 & K2)]; [|eauto].
    destruct HN as (r & Hr & Hu). now destruct (root_source _ K r Hr).
  - exists 0. intros fuel _. rewrite parse_grammar_new, P. exact I.
Qed.

(** Acceptance. *)
Lemma grammar_lr1 s d : parse_declarations s = Ok d -> root_unused (d_rules d) -> first_complete (source (d_rules d)) ->
  productive (source (d_rules d)) -> exists N, forall fuel, N < fuel ->
  ((exists n et gi, parse_grammar print fuel s = Ok (n, et, gi)) <-> valid_grammar (source (d_rules d)) /\ lr1_grammar (source (d_rules d))).
Proof.
  intros P Ru Fc Pr.
  assert (Eps : eps_trailing (source (d_rules d))).
  { intros r Hr ns1 ns2 nd Hns Hin. unfold source in Hr. apply in_map_iff in Hr as (pr & <- & Hpr). simpl in Hns.
    assert (Hx : In PNEpsilon (pr_nodes pr)).
    { assert (Hy : In (Terminal Epsilon) (map to_lr_node (pr_nodes pr))) by (rewrite Hns; apply in_or_app; simpl; auto).
      apply in_map_iff in Hy as ([l|x|] & Hy & Hz); try discriminate. auto. }
    rewrite (proj2 (read_epsilon s d pr P Hpr) Hx) in Hns. simpl in Hns.
    destruct ns1 as [|? [|? ?]]; simpl in Hns; try discriminate. injection Hns as <-. destruct Hin. }
  destruct (accepted_iff_lr1 _ Eps Fc Pr (root_source _ Ru)) as (N & HN). exists N. intros fuel Hf. rewrite <- (HN fuel Hf).
  rewrite parse_grammar_new, P. cbn [bind]. split.
  - intros (n & et & gi & H). destruct (parser_new fuel (source (d_rules d))) as [p| | |]; try discriminate. eauto.
  - intros (p & ->). cbn [bind lift_lr]. eauto.
Qed.

(** ** The macro *)
Variable literal_ok : string -> bool.

Lemma macro_parts ho fuel ts p : build_grammar print literal_ok ho fuel ts = Ok p -> exists n et gi,
  parse_grammar print fuel (tokenize_from_stream ts) = Ok (n, et, gi) /\ generate_parser literal_ok ho gi = Ok p.
Proof.
  unfold build_grammar. destruct (parse_grammar print fuel _) as [[[n et] gi]| | |]; try discriminate. cbn [map_err bind].
  destruct (generate_parser literal_ok ho gi) as [q| | |] eqn:G; try discriminate. simpl. intro E. injection E as ->. eauto.
Qed.

(** The program is one generated for the grammar that was written. *)
Definition generated_for (d : declarations) (p : program) (gi : grammar_info) : Prop :=
  gi_terminal_type gi = d_terminal_type d /\ gi_rules gi = d_rules d /\
  (forall l, hm_get l (gi_label_types gi) = hm_get l (d_label_types d)) /\ generated literal_ok gi p.

Lemma macro_generated ho fuel ts p d : orders_ok ho -> reads_as print ts d -> defaults_bound (d_rules d) ->
  build_grammar print literal_ok ho fuel ts = Ok p -> exists gi, generated_for d p gi.
Proof.
  intros Ho R Db H. apply macro_parts in H as (n & et & gi & P & G). pose proof (grammar_accepted _ _ _ _ _ P) as A.
  apply grammar_parts in P as (d' & P & Et & El & Er & _ & _ & _ & _). apply read_complete in R as (d2 & P2 & S).
  rewrite P in P2. injection P2 as <-. destruct S as (S1 & S2 & S3 & S4 & S5).
  exists gi. unfold generated_for. rewrite Et, Er, El. repeat split; auto; try congruence.
  - rewrite Er, <- S4. exact Db.
  - exists ho. auto.
Qed.

Lemma names_decidable rules : (forall s, terminal_in rules s -> string_is_identifier (sname s) = true) \/
  exists s, terminal_in rules s /\ string_is_identifier (sname s) = false.
Proof.
  set (bad := fun n => match n with PNSymbol s => negb (string_is_identifier (sname s)) | _ => false end).
  destruct (existsb (fun r => existsb bad (pr_nodes r)) rules) eqn:E.
  - right. apply existsb_exists in E as (r & Hr & E). apply existsb_exists in E as ([l|s|] & Hs & E); try discriminate.
    exists s. split; [exists r; auto|]. simpl in E. now apply negb_true_iff in E.
  - left. intros s (r & Hr & Hs). destruct (string_is_identifier (sname s)) eqn:K; auto.
    assert (E' : existsb (fun r => existsb bad (pr_nodes r)) rules = true).
    { apply existsb_exists. exists r. split; auto. apply existsb_exists. exists (PNSymbol s). split; auto. simpl. now rewrite K. }
    congruence.
Qed.

Lemma generates ho fuel ts n et gi : orders_ok ho -> parse_grammar print fuel (tokenize_from_stream ts) = Ok (n, et, gi) ->
  match generate_parser literal_ok ho gi with
  | Ok p => True
  | Err e => (exists i, build_constructor (gi_rules gi) i = Err e) \/
             (exists s ty, terminal_in (gi_rules gi) s /\ gi_terminal_type gi = TTRaw ty /\ as_literal literal_ok s = Err e)
  | Panic _ => exists d, parse_declarations (tokenize_from_stream ts) = Ok d /\ panic_cause d
  | Diverge => False
  end.
Proof.
  intros Ho P. pose proof (grammar_accepted _ _ _ _ _ P) as A. apply grammar_parts in P as (d & P & Et & El & Er & _ & _ & _ & _).
  destruct (accepted_setup literal_ok gi A) as (F & ks & acts & gts & Hsu).
  assert (Hn : panic_cause d \/ forall s, terminal_in (gi_rules gi) s -> ident_needed gi s -> string_is_identifier (sname s) = true).
  { rewrite Er. unfold ident_needed. rewrite Et. destruct (names_decidable (d_rules d)) as [K|(s & Hs & K)]; [auto|].
    destruct (d_terminal_type d) as [ty|ty] eqn:Ed.
    - right. intros s' Hs' N. destruct (read_names ts d s' P Hs') as [E|[E _]]; [auto|congruence].
    - left. right. exists s, ty. split; auto. split; auto. destruct (read_names ts d s P Hs) as [E|[_ E]]; [congruence|auto]. }
  assert (Hr : panic_cause d \/ rootclean (gi_grammar gi)).
  { destruct (root_decidable (d_rules d)) as [K|K]; [right|left; left; auto].
    apply root_clean; [exact (su_ix _ _ _ _ _ Hsu)|now rewrite Er]. }
  pose proof (generate_wp literal_ok ho gi Ho (panic_cause d) Hn Hr F ks acts gts Hsu) as Hw.
  destruct (generate_parser literal_ok ho gi) as [p|e|w|]; simpl in Hw; auto; [|eauto].
  destruct Hw as [(i & _ & _ & Hw)|Hw]; [left; eauto|right; exact Hw].
Qed.

Lemma macro_total ho ts : orders_ok ho -> exists N, forall fuel, N < fuel ->
  match build_grammar print literal_ok ho fuel ts with
  | Ok _ => True
  | Err (FrontError e) => parse_grammar print fuel (tokenize_from_stream ts) = Err e
  | Err (CodeGenError e) => exists d, parse_declarations (tokenize_from_stream ts) = Ok d /\
      ((exists i, build_constructor (d_rules d) i = Err e) \/
       (exists s ty, terminal_in (d_rules d) s /\ d_terminal_type d = TTRaw ty /\ as_literal literal_ok s = Err e))
  | Panic _ => exists d, parse_declarations (tokenize_from_stream ts) = Ok d /\ panic_cause d
  | Diverge => False
  end.
Proof.
  intro Ho. destruct (grammar_total (tokenize_from_stream ts) (tokenize_clean ts PBEmpty)) as (N & HN). exists N.
  intros fuel Hf. specialize (HN fuel Hf). unfold build_grammar.
  destruct (parse_grammar print fuel (tokenize_from_stream ts)) as [[[n et] gi]|e|why|] eqn:P; cbn [map_err bind]; auto.
  - pose proof (generates ho fuel ts n et gi Ho P) as G. apply grammar_parts in P as (d & P & Et & El & Er & _).
    destruct (generate_parser literal_ok ho gi) as [p|e|w|]; cbn [map_err]; auto.
    exists d. rewrite Et, Er in G. auto.
  - destruct HN as (d & r & Hd & Hr & Hi). exists d. split; auto. left. eauto.
Qed.

(** Summaries. *)
Lemma read_grammar ts d : parse_declarations (tokenize_from_stream ts) = Ok d ->
  no_eos (source (d_rules d)) /\ forall r, In r (source (d_rules d)) -> rhs r <> [] /\ (In (Terminal Epsilon) (rhs r) -> rhs r = [Terminal Epsilon]).
Proof.
  intro P. split; [apply no_eos_source|]. intros r Hr. unfold source in Hr. apply in_map_iff in Hr as (pr & <- & Hpr). simpl.
  destruct (read_epsilon _ d pr P Hpr) as [N E]. split.
  - intro K. apply map_eq_nil in K. auto.
  - intro Hx. apply in_map_iff in Hx as ([l|s|] & Hy & Hz); try discriminate. now rewrite (E Hz).
Qed.

Lemma grammar_labels fuel ts n et gi : parse_grammar print fuel (tokenize_from_stream ts) = Ok (n, et, gi) ->
  (forall r1 r2, In r1 (gi_rules gi) -> In r2 (gi_rules gi) -> pr_name r1 = pr_name r2 -> same_type print (pr_type r1) (pr_type r2)) /\
  (forall r, In r (gi_rules gi) -> exists ty, label_type gi (pr_name r) = Ok ty /\ same_type print ty (pr_type r)) /\
  (forall r l, In r (gi_rules gi) -> In (PNProduction l) (pr_nodes r) -> exists ty, label_type gi l = Ok ty).
Proof.
  intro H. pose proof (used_labels fuel (tokenize_from_stream ts) n et gi) as U. apply grammar_parts in H as K.
  destruct K as (d & P & Et & El & Er & _).
  assert (K : forall r, In r (gi_rules gi) -> exists ty, label_type gi (pr_name r) = Ok ty /\ same_type print ty (pr_type r)).
  { intros r Hr. rewrite Er in Hr. destruct (read_types _ d r P Hr) as (ty & G & S). exists ty. unfold label_type. rewrite El, G. auto. }
  split; [|split; auto].
  - intros r1 r2. rewrite Er. now apply (read_one_type _ d r1 r2 P).
  - intros r l Hr Hl. destruct (U l H (ex_intro _ r (conj Hr Hl))) as (r' & Hr' & <-). destruct (K r' Hr') as (ty & G & _). eauto.
Qed.

Lemma macro_language ho fuel ts p d : orders_ok ho -> reads_as print ts d -> defaults_bound (d_rules d) ->
  build_grammar print literal_ok ho fuel ts = Ok p -> exists gi, gi_terminal_type gi = d_terminal_type d /\ gi_rules gi = d_rules d /\
  forall (bmr : BuildMode) (E : Type) (R : rust) (SErr : Type) (into : SErr -> UErr R),
  (forall input fuel' st v, parse_fallible (bm := bmr) (E := E) R into input fuel' p = Ok (st, inl v) ->
    exists toks t, (forall i, i <= List.length toks -> input i = of_list toks i) /\ parses_tokens R gi toks t /\
      snd (eval R gi t) = inl v /\ map fst (st_log R st) = postorder t) /\
  (forall toks t, first_complete (bm := bm) (source (d_rules d)) -> unambiguous_tokens R gi toks -> parses_tokens R gi toks t ->
    exists N st, forall fuel', N < fuel' -> parse_fallible (bm := bmr) (E := E) R into (of_list toks) fuel' p =
      Ok (st, match snd (eval R gi t) with inl v => inl v | inr e => inr (UserError R e) end)).
Proof.
  intros Ho Hr Hd Hb. destruct (macro_generated ho fuel ts p d Ho Hr Hd Hb) as (gi & Et & Er & _ & G).
  exists gi. split; auto. split; auto. intros bmr E R SErr into. split.
  - intros input fuel' st v H. destruct (main_value (E := E) literal_ok gi R p G into input fuel' st v H) as (toks & t & H1 & H2 & H3 & _ & H4).
    exists toks, t. auto.
  - intros toks t Hf Hu Hp. rewrite <- Er in Hf. destruct (main_sentence (bm := bmr) (E := E) literal_ok gi R p G into toks t Hf Hu Hp) as (N & st & H & _).
    eauto.
Qed.

End Main.
