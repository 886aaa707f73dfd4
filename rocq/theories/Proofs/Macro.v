(** The front end reads exactly the inputs that are files of declarations. *)
From Coq Require Import Arith Bool String Ascii List Lia.
From Verif Require Import Base.Prelude Spec.Grammar Model.TokenTree Model.Terminal Model.Constructor Model.Symbol Model.FrontEnd.
From Verif Require Import Spec.Macro Proofs.WP.
Import ListNotations.
Open Scope list_scope.

(** ** Symbols *)

Lemma eqb_spec {A} `{EqDec A} (x y : A) : reflect (x = y) (eqb x y).
Proof. unfold eqb. destruct eq_dec; constructor; auto. Qed.

Lemma letter_ok c : is_leading_ident_char c = true <-> letter c.
Proof.
  unfold is_leading_ident_char, letter. rewrite !orb_true_iff, !andb_true_iff, !Nat.leb_le, Nat.eqb_eq.
  split.
  - intros [[H|H]|H]; auto. right; right. rewrite <- (ascii_nat_embedding c), H. reflexivity.
  - intros [H|[H| ->]]; auto.
Qed.

Lemma ident_char_ok c : is_ident_char c = true <-> letter c \/ 48 <= nat_of_ascii c <= 57.
Proof. unfold is_ident_char. rewrite orb_true_iff, andb_true_iff, !Nat.leb_le, letter_ok. tauto. Qed.

Lemma all_chars_ok f s : all_chars f s = true <-> Forall (fun c => f c = true) (list_ascii_of_string s).
Proof.
  induction s as [|c s IH]; simpl; [split; auto|]. rewrite andb_true_iff, IH. split.
  - intros []. auto.
  - intro H. inversion H; auto.
Qed.

Lemma identifier_ok s : string_is_identifier s = true <-> identifier s.
Proof.
  unfold identifier. destruct s as [|c s]; cbn [string_is_identifier].
  - split; [discriminate|]. intros (c & s' & E & _). discriminate.
  - rewrite andb_true_iff, letter_ok. cbn [all_chars]. rewrite andb_true_iff, all_chars_ok. split.
    + intros (L & _ & F). exists c, s. repeat split; auto. eapply Forall_impl; [|exact F]. intro; apply ident_char_ok.
    + intros (c' & s' & E & L & F). injection E as -> ->. repeat split; auto.
      * apply ident_char_ok. auto.
      * eapply Forall_impl; [|exact F]. intro; apply ident_char_ok.
Qed.

Lemma identifier_no s : string_is_identifier s = false <-> ~ identifier s.
Proof. rewrite <- identifier_ok. destruct string_is_identifier; split; congruence. Qed.

Lemma quote_ok t : prefix "'" t = true <-> exists t', t = String "'" t'.
Proof.
  destruct t as [|c t]; cbn [prefix].
  - split; [discriminate|]. now intros [].
  - destruct (ascii_dec "'" c) as [<-|N]; split; eauto.
    + now destruct t.
    + discriminate.
    + intros [t' E]. congruence.
Qed.

Lemma quote_not_identifier t : ~ identifier (String "'" t).
Proof. intros (c & s' & E & L & _). injection E as <- <-. apply letter_ok in L. discriminate. Qed.

Lemma quote_no n : identifier n -> prefix "'" n = false.
Proof.
  intro I. destruct (prefix "'" n) eqn:E; auto. apply quote_ok in E as [t ->]. now destruct (quote_not_identifier t).
Qed.

Lemma tokenize_symbol x ts : symbol_ok x -> tokenize PBEmpty (sym_meta x ++ ts) = inl x :: tokenize PBEmpty ts.
Proof.
  destruct x as [t m]. unfold symbol_ok. cbn [sym_type sym_meta]. intro H.
  destruct H as [c op sp H| |sp|sp|n I|n I|t|b|b|b]; try reflexivity.
  - simpl in H. repeat destruct H as [H|H]; try contradiction; injection H as <- <-; reflexivity.
  - cbn [app tokenize consume_next_token]. unfold from_ident. apply identifier_ok in I as ->. reflexivity.
  - cbn [app tokenize consume_next_token]. unfold from_literal. rewrite quote_no by auto.
    apply identifier_ok in I as ->. reflexivity.
  - cbn [app tokenize consume_next_token]. unfold from_literal.
    replace (prefix "'" (String "'" t)) with true; [reflexivity|]. symmetry. apply quote_ok. eauto.
Qed.

Lemma tokenize_symbols xs ts : Forall symbol_ok xs ->
  tokenize PBEmpty (flat_map sym_meta xs ++ ts) = map inl xs ++ tokenize PBEmpty ts.
Proof.
  induction 1 as [|x xs Hx _ IH]; simpl; auto. rewrite <- app_assoc, tokenize_symbol by auto. now rewrite IH.
Qed.

Lemma tokenize_bad ts e : not_a_symbol ts e -> exists r, tokenize PBEmpty ts = inr e :: r.
Proof.
  intro H. destruct H as [ts r|n r N|t r N Q|r|c sp r N|c sp r N|c sp r N N1 N2].
  - eexists. reflexivity.
  - apply identifier_no in N. cbn [tokenize consume_next_token]. unfold from_ident. rewrite N. eexists. reflexivity.
  - cbn [tokenize consume_next_token]. unfold from_literal.
    destruct (prefix "'" t) eqn:P; [apply quote_ok in P as [t' ->]; now destruct (Q t')|].
    apply identifier_no in N. rewrite N. eexists. reflexivity.
  - eexists. reflexivity.
  - cbn [tokenize consume_next_token]. cbn. destruct (eqb_spec c ">"%char); [contradiction|]. eexists. reflexivity.
  - cbn [tokenize consume_next_token]. cbn. destruct (eqb_spec c ":"%char); [contradiction|]. eexists. reflexivity.
  - cbn [tokenize consume_next_token consume_next].
    destruct (eqb_spec c ";"%char) as [->|]; [destruct (N Semicolon); simpl; tauto|].
    destruct (eqb_spec c "#"%char) as [->|]; [destruct (N NumberSign); simpl; tauto|].
    destruct (eqb_spec c "<"%char) as [->|]; [destruct (N BeginProd); simpl; tauto|].
    destruct (eqb_spec c ">"%char) as [->|]; [destruct (N EndProd); simpl; tauto|].
    destruct (eqb_spec c "|"%char) as [->|]; [destruct (N Pipe); simpl; tauto|].
    destruct (eqb_spec c "!"%char) as [->|]; [destruct (N Bang); simpl; tauto|].
    destruct (eqb_spec c "="%char); [contradiction|]. destruct (eqb_spec c ":"%char); [contradiction|].
    eexists. reflexivity.
Qed.

Lemma well_spaced_app l r : well_spaced (l ++ r) -> well_spaced r.
Proof. intros W l' c r' E. apply (W (l ++ l') c r'). now rewrite E, app_assoc. Qed.

Lemma first_symbol ts : ts <> [] -> well_spaced ts ->
  (exists x r, symbol_ok x /\ ts = sym_meta x ++ r) \/ exists e, not_a_symbol ts e.
Proof.
  intros Ne W.
  assert (G : forall t m r, ts = m ++ r -> symbol_tokens t m -> exists x r, symbol_ok x /\ ts = sym_meta x ++ r).
  { intros t m r E H. exists (mk_sym t m), r. split; auto. }
  destruct ts as [|t ts]; [congruence|]. destruct t as [d g|c sp|n|t].
  - destruct d.
    + left. eapply (G _ [_]); [reflexivity|apply st_paren].
    + left. eapply (G _ [_]); [reflexivity|apply st_brace].
    + left. eapply (G _ [_]); [reflexivity|apply st_bracket].
    + right. eexists. constructor.
  - destruct (ascii_dec c ":") as [->|N1].
    + destruct sp; [left; eapply (G _ [_]); [reflexivity|apply st_colon]|].
      destruct (W [] ":"%char ts eq_refl) as (c' & sp' & r & ->).
      destruct (ascii_dec c' ":") as [->|N]; [left|right; eexists; now apply nas_colon_other].
      eapply (G _ [_; _]); [reflexivity|apply st_scope].
    + destruct (ascii_dec c "=") as [->|N2].
      * destruct sp; [right; eexists; apply nas_eq|].
        destruct (W [] "="%char ts eq_refl) as (c' & sp' & r & ->).
        destruct (ascii_dec c' ">") as [->|N]; [left|right; eexists; now apply nas_eq_other].
        eapply (G _ [_; _]); [reflexivity|apply st_arrow].
      * destruct (in_dec ascii_dec c (map fst punctuation)) as [Hi|Hi].
        -- left. apply in_map_iff in Hi as ([c' op] & E & Hi). simpl in E. subst c'.
           eapply (G _ [_]); [reflexivity|]. now apply st_punctuation with (op := op).
        -- right. eexists. apply nas_punct; auto. intros op Ho. apply Hi. apply in_map_iff. now exists (c, op).
  - destruct (string_is_identifier n) eqn:I.
    + left. eapply (G _ [_]); [reflexivity|]. apply st_ident. now apply identifier_ok.
    + right. eexists. apply nas_ident. now apply identifier_no.
  - destruct (prefix "'" t) eqn:Q.
    + apply quote_ok in Q as [t' ->]. left. eapply (G _ [_]); [reflexivity|]. apply st_literal.
    + destruct (string_is_identifier t) eqn:I.
      * left. eapply (G _ [_]); [reflexivity|]. apply st_ident_literal. now apply identifier_ok.
      * right. eexists. apply nas_literal; [now apply identifier_no|]. intros t' ->.
        assert (prefix "'" (String "'" t') = true) by (apply quote_ok; eauto). congruence.
Qed.

(** The symbols before the first error, if there is one. *)
Lemma tokenize_spec ts : well_spaced ts -> exists xs, Forall symbol_ok xs /\
  ((ts = flat_map sym_meta xs /\ tokenize PBEmpty ts = map inl xs) \/
   (exists bad e r, ts = flat_map sym_meta xs ++ bad /\ not_a_symbol bad e /\ tokenize PBEmpty ts = map inl xs ++ inr e :: r)).
Proof.
  remember (List.length ts) as n eqn:En. revert ts En. induction n as [n IH] using lt_wf_ind. intros ts En W.
  destruct ts as [|t ts']; [exists []; split; auto|].
  destruct (first_symbol (t :: ts') ltac:(discriminate) W) as [(x & r & Hx & E)|(e & B)].
  - assert (L : List.length r < n).
    { subst n. rewrite E, app_length. unfold symbol_ok in Hx. assert (List.length (sym_meta x) > 0); [|lia].
      destruct Hx; simpl; lia. }
    assert (Wr : well_spaced r) by (rewrite E in W; now apply well_spaced_app in W).
    destruct (IH _ L r eq_refl Wr) as (xs & F & [[E2 K]|(bad & e & q & E2 & B & K)]).
    + exists (x :: xs). split; [auto|]. left. rewrite E, tokenize_symbol, K by auto. simpl. now rewrite <- E2.
    + exists (x :: xs). split; [auto|]. right. exists bad, e, q. rewrite E, tokenize_symbol, K by auto. simpl.
      rewrite E2 at 1. rewrite app_assoc. auto.
  - exists []. split; auto. right. destruct (tokenize_bad _ _ B) as [r K]. exists (t :: ts'), e, r. auto.
Qed.

Lemma map_inl_inj {A B} (xs ys : list A) : map (@inl A B) xs = map inl ys -> xs = ys.
Proof.
  revert ys. induction xs as [|x xs IH]; intros [|y ys] E; try discriminate; auto. injection E as -> E. f_equal. auto.
Qed.

Lemma map_inl_inr {A B} (xs ys : list A) (e : B) r : map inl xs = map inl ys ++ inr e :: r -> False.
Proof. revert ys. induction xs as [|x xs IH]; intros [|y ys] E; try discriminate. injection E as _ E. eauto. Qed.

Lemma map_inl_inr_inj {A B} (xs ys : list A) (e e' : B) r r' :
  map inl xs ++ inr e :: r = map inl ys ++ inr e' :: r' -> xs = ys /\ e = e'.
Proof.
  revert ys. induction xs as [|x xs IH]; intros [|y ys] E; try discriminate.
  - injection E as -> _. auto.
  - injection E as -> E. apply IH in E as [-> ->]. auto.
Qed.

Lemma tokenize_ok ts xs : well_spaced ts -> tokenize_from_stream ts = map inl xs <-> symbols_of ts xs.
Proof.
  unfold tokenize_from_stream, symbols_of. intro W. split.
  - intro E. destruct (tokenize_spec ts W) as (ys & F & [[E2 K]|(bad & e & q & E2 & B & K)]).
    + rewrite E in K. apply map_inl_inj in K. subst ys. auto.
    + rewrite E in K. now apply map_inl_inr in K.
  - intros [F <-]. pose proof (tokenize_symbols xs [] F) as K. now rewrite !app_nil_r in K.
Qed.

Lemma tokenize_of_symbols ts xs : symbols_of ts xs -> tokenize_from_stream ts = map inl xs.
Proof. intros [F <-]. pose proof (tokenize_symbols xs [] F) as K. now rewrite !app_nil_r in K. Qed.

Lemma tokenize_err ts xs e : well_spaced ts -> (exists r, tokenize_from_stream ts = map inl xs ++ inr e :: r) <->
  exists good bad, ts = good ++ bad /\ symbols_of good xs /\ not_a_symbol bad e.
Proof.
  unfold tokenize_from_stream, symbols_of. intro W. split.
  - intros [r E]. destruct (tokenize_spec ts W) as (ys & F & [[E2 K]|(bad & e' & q & E2 & B & K)]).
    + rewrite E in K. symmetry in K. now apply map_inl_inr in K.
    + rewrite E in K. apply map_inl_inr_inj in K as [-> ->]. eauto 10.
  - intros (good & bad & -> & [F <-] & B). rewrite tokenize_symbols by auto.
    destruct (tokenize_bad _ _ B) as [r ->]. eauto.
Qed.

(** ** Streams *)

(** The stream [s] begins with the symbols [xs] and continues with [s']. *)
Notation "xs +> s" := (map inl xs ++ s) (at level 60, right associativity).

Lemma expect_symbol_ok s x s' : expect_symbol s = Ok (x, s') <-> s = [x] +> s'.
Proof.
  destruct s as [|[y|e] s]; simpl; split; try discriminate; intro E.
  - now injection E as -> ->.
  - now injection E as -> ->.
Qed.

Lemma peek_ok s x s' : peek_expect_symbol s = Ok (x, s') <-> s = [x] +> s'.
Proof. exact (expect_symbol_ok s x s'). Qed.

Lemma expect_with_ok s cmp msg m s' : expect_symbol_with s cmp msg = Ok (m, s') <->
  exists x, s = [x] +> s' /\ cmp (sym_type x) = true /\ m = sym_meta x.
Proof.
  unfold expect_symbol_with. destruct s as [|[y|e] s]; simpl; split; try discriminate; try (intros (x & E & _); discriminate).
  - destruct (cmp (sym_type y)) eqn:C; [|discriminate]. intro E. injection E as <- <-. eauto.
  - intros (x & E & C & ->). injection E as -> ->. now rewrite C.
Qed.

Lemma is_op_ok t op : is_op t op = true <-> t = SOp op.
Proof.
  destruct t; simpl; split; try discriminate; intro E.
  - destruct (eqb_spec op0 op); [congruence|discriminate].
  - injection E as ->. now destruct (eqb_spec op op).
Qed.

Lemma is_op_no t op : is_op t op = false <-> t <> SOp op.
Proof. rewrite <- is_op_ok. destruct is_op; split; congruence. Qed.

Lemma is_name_ok t n : is_identifier_with_name t n = true <-> t = SIdent n.
Proof.
  destruct t; simpl; split; try discriminate; intro E.
  - apply String.eqb_eq in E. now subst.
  - injection E as ->. apply String.eqb_refl.
Qed.

Lemma types_cons xs t ts : types xs = t :: ts -> exists x xs', xs = x :: xs' /\ sym_type x = t /\ types xs' = ts.
Proof. destruct xs as [|x xs]; [discriminate|]. intro E. injection E as E1 E2. eauto. Qed.

Lemma types_nil xs : types xs = [] -> xs = [].
Proof. now destruct xs. Qed.

Ltac split_types :=
  repeat match goal with
  | H : types ?xs = _ :: _ |- _ =>
      apply types_cons in H; let x := fresh "x" in let xs' := fresh "xs" in let E := fresh "E" in let T := fresh "T" in
      destruct H as (x & xs' & E & T & H); subst xs
  | H : types ?xs = [] |- _ => apply types_nil in H; subst xs
  end.

Lemma ref_ok s n s' : production_ref_parse s = Ok (n, s') <->
  exists xs, s = xs +> s' /\ types xs = [SOp BeginProd; SIdent n; SOp EndProd].
Proof.
  unfold production_ref_parse. split.
  - intro H.
    destruct (expect_symbol_with s _ ExpectedBeginProd) as [[m1 s1]| | |] eqn:E1; try discriminate. cbn [bind] in H.
    destruct (expect_symbol s1) as [[x2 s2]| | |] eqn:E2; try discriminate. cbn [bind] in H.
    destruct (sym_type x2) eqn:T2; try discriminate. cbn [bind] in H.
    destruct (expect_symbol_with s2 _ ExpectedEndProd) as [[m3 s3]| | |] eqn:E3; try discriminate. cbn [bind] in H.
    injection H as -> ->.
    apply expect_with_ok in E1 as (x1 & -> & T1 & _). apply expect_symbol_ok in E2 as ->.
    apply expect_with_ok in E3 as (x3 & -> & T3 & _). apply is_op_ok in T1, T3.
    exists [x1; x2; x3]. split; auto. simpl. congruence.
  - intros (xs & -> & T). split_types. simpl.
    unfold expect_symbol_with. simpl. rewrite T0; simpl; rewrite T1; simpl; rewrite T2. reflexivity.
Qed.

Lemma type_rest_ok s : forall m ty s', type_rest m s = Ok (ty, s') <->
  exists xs y q, s = xs +> s' /\ s' = [y] +> q /\ (sym_type y = SOp Arrow \/ sym_type y = SOp Semicolon) /\
    Forall (fun y => sym_type y <> SOp Arrow /\ sym_type y <> SOp Semicolon) xs /\ ty = m ++ flat_map sym_meta xs.
Proof.
  induction s as [|[x|e] s IH]; intros m ty s'; cbn [type_rest].
  - split; [discriminate|]. intros ([|] & y & q & E1 & E2 & _); [rewrite E2 in E1|]; discriminate.
  - destruct (is_op (sym_type x) Arrow || is_op (sym_type x) Semicolon) eqn:O.
    + apply orb_true_iff in O. rewrite !is_op_ok in O. split.
      * intro E. injection E as <- <-. exists [], x, s. rewrite app_nil_r. auto.
      * intros (xs & y & q & E1 & E2 & _ & F & ->). destruct F as [|z xs [N1 N2] F].
        -- simpl in E1. subst s'. now rewrite app_nil_r.
        -- injection E1 as <- E1. tauto.
    + apply orb_false_iff in O. rewrite !is_op_no in O. rewrite IH. split.
      * intros (xs & y & q & -> & -> & O' & F & ->). exists (x :: xs), y, q. repeat split; auto.
        simpl. now rewrite <- app_assoc.
      * intros (xs & y & q & E1 & -> & O' & F & ->). destruct F as [|z xs [N1 N2] F].
        -- injection E1 as -> ->. tauto.
        -- injection E1 as -> ->. exists xs, y, q. repeat split; auto. simpl. now rewrite <- app_assoc.
  - split; [discriminate|]. intros ([|] & y & q & E1 & E2 & _); [rewrite E2 in E1|]; discriminate.
Qed.

(** Something that ends a type. *)
Definition type_end (s : stream) : Prop :=
  exists y q, s = [y] +> q /\ (sym_type y = SOp Arrow \/ sym_type y = SOp Semicolon).

Lemma type_ok s ty s' : type_parse s = Ok (ty, s') <-> exists xs, s = xs +> s' /\ type_syms ty xs /\ type_end s'.
Proof.
  unfold type_parse, type_end. split.
  - destruct s as [|[x|e] s]; try discriminate. cbn [expect_symbol bind]. intro H.
    apply type_rest_ok in H as (xs & y & q & -> & -> & O & F & ->).
    exists (x :: xs). repeat split; eauto.
  - intros (xs & -> & T & y & q & -> & O). destruct T as [x xs F]. simpl.
    apply type_rest_ok. exists xs, y, q. repeat split; auto.
Qed.

Section FrontEnd.
Context {bm : BuildMode}.
Variable print : list ttree -> string.

(** A stream that does not go on with an argument in parentheses. *)
Definition no_paren (s : stream) : Prop := exists y q, s = [y] +> q /\ forall ts, sym_type y <> SParen ts.

Lemma wildcard_ok ts : is_wildcard ts = true <-> wildcard ts.
Proof.
  unfold wildcard. split.
  - destruct ts as [|t ts]; [discriminate|]. cbn [is_wildcard]. destruct (is_punct t "." Joint) eqn:P.
    + destruct ts as [|t' [|]]; try discriminate. intro P'.
      destruct t; try discriminate. destruct t'; try discriminate. simpl in P, P'.
      apply andb_true_iff in P as [P1 P2]. apply andb_true_iff in P' as [P3 P4].
      destruct (eqb_spec c "."%char); [|discriminate]. destruct (eqb_spec sp Joint); [|discriminate].
      destruct (eqb_spec c0 "."%char); [|discriminate]. destruct (eqb_spec sp0 Alone); [|discriminate]. subst. auto.
    + destruct (is_punct t "_" Alone) eqn:P'; [|discriminate]. destruct ts; [|discriminate]. intros _.
      destruct t; try discriminate. simpl in P'. apply andb_true_iff in P' as [P3 P4].
      destruct (eqb_spec c "_"%char); [|discriminate]. destruct (eqb_spec sp Alone); [|discriminate]. subst. auto.
  - intros [-> | ->]; reflexivity.
Qed.

Lemma wildcard_no ts : is_wildcard ts = false <-> ~ wildcard ts.
Proof. rewrite <- wildcard_ok. destruct is_wildcard; split; congruence. Qed.

Lemma node_sound s n s' : production_node_parse print s = Ok (n, s') -> exists xs, s = xs +> s' /\ node_syms print n xs.
Proof.
  unfold production_node_parse. destruct s as [|[x|e] s]; try discriminate. cbn [peek_expect_symbol bind].
  assert (G : terminal_parse print (inl x :: s) = Ok (n, s') -> exists xs, inl x :: s = xs +> s' /\ node_syms print n xs).
  { unfold terminal_parse. cbn [expect_symbol bind]. destruct (sym_type x) as [op|nm|t| | |] eqn:T; try discriminate.
    - destruct op; try discriminate. intro E. injection E as <- <-. exists [x]. split; auto. constructor. simpl. now rewrite T.
    - unfold parse_ident. destruct s as [|[y|e] s]; try discriminate. cbn [peek_expect_symbol bind].
      assert (K : (forall ts, sym_type y <> SParen ts) -> Ok (PNSymbol (mk_symbol nm PGNone), inl y :: s) = Ok (E := front_error) (n, s') ->
        exists xs, inl x :: inl y :: s = xs +> s' /\ node_syms print n xs).
      { intros _ E. injection E as <- <-. exists [x]. split; auto. apply ns_ident. simpl. now rewrite T. }
      destruct (sym_type y) as [| | | |ts|] eqn:Ty; try (apply K; congruence).
      destruct (is_wildcard ts) eqn:W; intro E; injection E as <- <-; exists [x; y]; split; auto.
      + apply ns_wildcard with (ts := ts); [simpl; congruence|now apply wildcard_ok].
      + apply ns_pattern; [simpl; congruence|now apply wildcard_no].
    - intro E. injection E as <- <-. exists [x]. split; auto. apply ns_literal. simpl. now rewrite T. }
  destruct (sym_type x) as [op| | | | |] eqn:T; try exact G.
  destruct op; try exact G. clear G. intro H.
  destruct (production_ref_parse _) as [[nm s1]| | |] eqn:R; try discriminate. cbn [bind] in H. injection H as <- <-.
  apply ref_ok in R as (xs & -> & Tx). exists xs. split; auto. now constructor.
Qed.

Lemma node_complete xs n s' : node_syms print n xs -> no_paren s' -> production_node_parse print (xs +> s') = Ok (n, s').
Proof.
  intros H (y & q & -> & Ny). unfold production_node_parse.
  destruct H as [nm xs T|t xs T|nm xs T|nm ts xs T W|nm ts xs T W|xs T].
  - pose proof T as T'. split_types. cbn [map app peek_expect_symbol bind]. rewrite T0.
    rewrite (proj2 (ref_ok _ nm (inl y :: q))); [reflexivity|]. exists [x; x0; x1]. split; auto.
  - split_types. simpl. rewrite T0. unfold terminal_parse. simpl. now rewrite T0.
  - split_types. simpl. rewrite T0. unfold terminal_parse. simpl. rewrite T0. unfold parse_ident. simpl.
    destruct (sym_type y) eqn:Ty; try reflexivity. now destruct (Ny ts).
  - split_types. simpl. rewrite T0. unfold terminal_parse. simpl. rewrite T0. unfold parse_ident. simpl. rewrite T1.
    apply wildcard_ok in W. now rewrite W.
  - split_types. simpl. rewrite T0. unfold terminal_parse. simpl. rewrite T0. unfold parse_ident. simpl. rewrite T1.
    apply wildcard_no in W. now rewrite W.
  - split_types. simpl. rewrite T0. unfold terminal_parse. simpl. now rewrite T0.
Qed.

(** A node begins with one of these. *)
Lemma node_first n xs : node_syms print n xs -> exists x xs', xs = x :: xs' /\
  (sym_type x = SOp BeginProd \/ sym_type x = SOp Bang \/ (exists t, sym_type x = SLiteral t) \/ exists i, sym_type x = SIdent i).
Proof. intro H. destruct H; split_types; eauto 10. Qed.

Lemma app_map_app (xs ys : list sym) (s : stream) : (xs ++ ys) +> s = xs +> ys +> s.
Proof. now rewrite map_app, app_assoc. Qed.

Lemma length_stream xs (s : stream) : List.length (xs +> s) = List.length xs + List.length s.
Proof. now rewrite app_length, map_length. Qed.

Lemma node_shorter n xs : node_syms print n xs -> List.length xs > 0.
Proof. intro H. apply node_first in H as (x & xs' & -> & _). simpl. lia. Qed.

(** *** Alternatives *)

Definition alt_end (s : stream) : Prop :=
  exists y q, s = [y] +> q /\ (sym_type y = SOp Pipe \/ sym_type y = SOp Semicolon).

Lemma rule_loop_sound fuel : forall rule s ns block s', rule_loop print fuel rule s = Ok (ns, block, s') ->
  exists ms xs ys, ns = rule ++ ms /\ s = xs +> ys +> s' /\ nodes_syms print ms xs /\ block_syms block ys /\
    (block = None -> alt_end s').
Proof.
  induction fuel as [|fuel IH]; intros rule s ns block s'; [discriminate|]. cbn [rule_loop].
  destruct s as [|[x|e] s]; try discriminate. cbn [peek_expect_symbol bind].
  assert (G : ('(node, s) <- production_node_parse print (inl x :: s);; rule_loop print fuel (rule ++ [node]) s) = Ok (ns, block, s') ->
    exists ms xs ys, ns = rule ++ ms /\ inl x :: s = xs +> ys +> s' /\ nodes_syms print ms xs /\ block_syms block ys /\
    (block = None -> alt_end s')).
  { destruct (production_node_parse print (inl x :: s)) as [[n s1]| | |] eqn:N; try discriminate. cbn [bind]. intro H.
    apply node_sound in N as (xs & Es & N). apply IH in H as (ms & xs' & ys & -> & -> & M & B & K).
    exists (n :: ms), (xs ++ xs'), ys. rewrite <- app_assoc, app_map_app. repeat split; auto. now constructor. }
  destruct (sym_type x) as [op| | |d ts| |] eqn:T; try exact G.
  - assert (G2 : sym_type x = SOp Pipe \/ sym_type x = SOp Semicolon -> Ok (rule, None, inl x :: s) = Ok (E := front_error) (ns, block, s') ->
      exists ms xs ys, ns = rule ++ ms /\ inl x :: s = xs +> ys +> s' /\ nodes_syms print ms xs /\ block_syms block ys /\ (block = None -> alt_end s')).
    { intros Hx E. injection E as <- <- <-. exists [], [], []. rewrite app_nil_r. repeat split; try constructor.
      intros _. exists x, s. auto. }
    destruct op; try exact G; apply G2; auto.
  - intro E. injection E as <- <- <-. exists [], [], [x]. rewrite app_nil_r. repeat split; try constructor; try discriminate.
    simpl. now rewrite T.
Qed.

(** After the nodes of an alternative. *)
Lemma block_next block ys s' : block_syms block ys -> (block = None -> alt_end s') ->
  exists y q, ys +> s' = [y] +> q /\
  ((sym_type y = SOp Pipe \/ sym_type y = SOp Semicolon) /\ block = None \/ exists d ts, sym_type y = SGroup d ts /\ block = Some (d, ts) /\ q = s').
Proof.
  intros B K. destruct B as [|d ts xs T].
  - destruct (K eq_refl) as (y & q & -> & O). exists y, q. auto.
  - split_types. exists x, s'. split; auto. right. eauto.
Qed.

Lemma nodes_next ms xs block ys s' : nodes_syms print ms xs -> block_syms block ys -> (block = None -> alt_end s') ->
  no_paren (xs +> ys +> s').
Proof.
  intros M B K. destruct M as [|n xs ms zs N M].
  - destruct (block_next _ _ _ B K) as (y & q & E & O). exists y, q. split; auto. intros ts' T.
    destruct O as [[[O|O] _]|(d & ts & O & _)]; congruence.
  - apply node_first in N as (x & xs' & -> & O). exists x, ((xs' ++ zs) +> ys +> s'). split; auto.
    intros ts T. destruct O as [O|[O|[[t O]|[i O]]]]; congruence.
Qed.

Lemma rule_loop_complete ms xs : nodes_syms print ms xs -> forall fuel rule ys block s', block_syms block ys ->
  (block = None -> alt_end s') -> List.length xs < fuel ->
  rule_loop print fuel rule (xs +> ys +> s') = Ok (rule ++ ms, block, s').
Proof.
  induction 1 as [|n xs ms zs N M IH]; intros fuel rule ys block s' B K L; (destruct fuel as [|fuel]; [simpl in L; lia|]); cbn [rule_loop].
  - cbn [map app]. destruct (block_next _ _ _ B K) as (y & q & E & O). rewrite E. cbn [map app peek_expect_symbol bind]. rewrite app_nil_r.
    destruct O as [[O ->]|(d & ts & -> & -> & ->)]; auto.
    inversion B; subst. cbn [map app] in E. rewrite E. destruct O as [-> | ->]; reflexivity.
  - pose proof (node_first _ _ N) as (x & xs' & -> & O).
    rewrite app_map_app. cbn [map app peek_expect_symbol bind].
    assert (P : production_node_parse print ((x :: xs') +> zs +> ys +> s') = Ok (n, zs +> ys +> s'))
      by (apply node_complete; auto; now apply nodes_next with (ms := ms) (block := block)).
    cbn [map app] in P. rewrite P. cbn [bind]. rewrite (IH fuel _ ys block s' B K) by (rewrite app_length in L; simpl in L; lia).
    rewrite <- app_assoc. destruct O as [-> |[-> |[[t ->]|[i ->]]]]; reflexivity.
Qed.

Lemma epsilon_exists ns : existsb pnode_is_epsilon ns = true <-> In PNEpsilon ns.
Proof.
  rewrite existsb_exists. split.
  - intros (n & H & E). destruct n; try discriminate. auto.
  - intro H. exists PNEpsilon. auto.
Qed.

Lemma epsilon_check ns : ns <> [] -> (1 <? List.length ns) && existsb pnode_is_epsilon ns = false <-> (In PNEpsilon ns -> ns = [PNEpsilon]).
Proof.
  intro Ne. rewrite andb_false_iff, Nat.ltb_ge. split.
  - intros [H|H] Hi.
    + destruct ns as [|n [|]]; simpl in H; try lia; [congruence|]. destruct Hi as [->|[]]. reflexivity.
    + apply epsilon_exists in Hi. congruence.
  - intro H. destruct (existsb pnode_is_epsilon ns) eqn:E; auto. left. apply epsilon_exists in E. rewrite (H E). auto.
Qed.

Lemma parse_rule_sound s name ty r s' : parse_rule print s name ty = Ok (r, s') ->
  exists a xs, s = xs +> s' /\ alt_syms print a xs /\ r = mk_prule name ty (fst a) (snd a) /\ (snd a = None -> alt_end s').
Proof.
  unfold parse_rule. intro H. destruct (production_node_parse print s) as [[n s1]| | |] eqn:N; try discriminate. cbn [bind] in H.
  apply node_sound in N as (xs & -> & N).
  destruct (rule_loop print _ [n] s1) as [[[ns block] s2]| | |] eqn:R; try discriminate. cbn [bind] in H.
  apply rule_loop_sound in R as (ms & ys & zs & -> & -> & M & B & K).
  destruct (_ && _) eqn:C; [discriminate|]. injection H as <- <-.
  exists (n :: ms, block), ((xs ++ ys) ++ zs). rewrite !app_map_app. split; [reflexivity|]. split; [|auto].
  apply as_alt; auto; [discriminate|now constructor|]. apply epsilon_check; auto. discriminate.
Qed.

Lemma parse_rule_complete a xs name ty s' : alt_syms print a xs -> (snd a = None -> alt_end s') ->
  parse_rule print (xs +> s') name ty = Ok (mk_prule name ty (fst a) (snd a), s').
Proof.
  intros A K. destruct A as [ns block xs ys Ne N B E]. cbn [fst snd] in *. unfold parse_rule. rewrite app_map_app.
  destruct N as [|n xs ns zs N M]; [congruence|]. rewrite app_map_app.
  rewrite (node_complete _ _ _ N) by now apply nodes_next with (ms := ns) (block := block).
  cbn [bind]. rewrite (rule_loop_complete _ _ M _ _ _ _ _ B K) by (rewrite !length_stream; lia). cbn [bind app].
  apply epsilon_check in E; [|discriminate]. now rewrite E.
Qed.

Definition prule_of (name : string) (ty : option (list ttree)) (a : alternative) : prule := mk_prule name ty (fst a) (snd a).

Lemma alternatives_sound fuel name ty : forall rules s rs s', alternatives print fuel name ty rules s = Ok (rs, s') ->
  (exists y, s = [y] +> s' /\ sym_type y = SOp Semicolon /\ rs = rules) \/
  exists x al xs y, s = (x :: xs ++ [y]) +> s' /\ sym_type x = SOp Pipe /\ alts_syms print al xs /\ sym_type y = SOp Semicolon /\
    rs = rules ++ map (prule_of name ty) al.
Proof.
  induction fuel as [|fuel IH]; intros rules s rs s'; [discriminate|]. cbn [alternatives].
  destruct s as [|[x|e] s]; try discriminate. cbn [expect_symbol bind].
  destruct (sym_type x) as [op| | | | |] eqn:T; try discriminate. destruct op; try discriminate.
  - intro E. injection E as <- <-. left. exists x. auto.
  - destruct (parse_rule print s name ty) as [[r s1]| | |] eqn:R; try discriminate. cbn [bind]. intro H.
    apply parse_rule_sound in R as (a & xs & -> & A & -> & K). right.
    apply IH in H as [(y & -> & Ty & ->)|(x' & al & ys & y & -> & Tx' & Al & Ty & ->)].
    + exists x, [a], xs, y. split; [cbn [map app]; rewrite map_app, <- app_assoc; reflexivity|]. repeat split; auto. now constructor.
    + exists x, (a :: al), (xs ++ x' :: ys), y. repeat split; auto.
      * rewrite <- app_assoc. exact (f_equal (cons (inl x)) (eq_sym (app_map_app xs (x' :: ys ++ [y]) s'))).
      * inversion Al; subst; now apply als_more.
      * rewrite <- app_assoc. reflexivity.
Qed.

Lemma alternatives_complete name ty al xs : alts_syms print al xs -> forall fuel x y rules s',
  sym_type x = SOp Pipe -> sym_type y = SOp Semicolon -> S (List.length xs) < fuel ->
  alternatives print fuel name ty rules ((x :: xs ++ [y]) +> s') = Ok (rules ++ map (prule_of name ty) al, s').
Proof.
  induction 1 as [a xs A|a xs x' a' al ys A Tx' Al IH]; intros fuel x y rules s' Tx Ty L; (destruct fuel as [|fuel]; [lia|]);
    cbn [alternatives map app expect_symbol bind]; rewrite Tx.
  - rewrite map_app, <- app_assoc. rewrite (parse_rule_complete _ _ _ _ _ A) by (intros _; exists y, s'; auto).
    cbn [bind]. destruct fuel as [|fuel]; [lia|]. cbn [alternatives map app expect_symbol bind]. now rewrite Ty.
  - rewrite <- app_assoc. cbn [app]. rewrite map_app, <- app_assoc.
    rewrite (parse_rule_complete _ _ _ _ _ A) by (intros _; eexists x', _; split; [reflexivity|auto]).
    cbn [bind]. rewrite (IH fuel x' y) by (auto; rewrite app_length in L; simpl in L; lia).
    now rewrite <- app_assoc.
Qed.

(** *** Declarations *)

Lemma return_type_sound s ty s' : maybe_parse_return_type s = Ok (ty, s') ->
  exists xs, s = xs +> s' /\ return_type_syms ty xs /\ (ty <> None -> type_end s').
Proof.
  unfold maybe_parse_return_type. destruct s as [|[x|e] s]; try discriminate. cbn [peek_expect_symbol bind].
  assert (G : Ok (None, inl x :: s) = Ok (E := front_error) (ty, s') -> exists xs, inl x :: s = xs +> s' /\ return_type_syms ty xs /\ (ty <> None -> type_end s')).
  { intro E. injection E as <- <-. exists []. repeat split; try constructor. congruence. }
  destruct (sym_type x) as [op| | | | |] eqn:T; try exact G. destruct op; try exact G.
  destruct (type_parse s) as [[t s1]| | |] eqn:P; try discriminate. cbn [bind]. intro E. injection E as <- <-.
  apply type_ok in P as (xs & -> & Ts & Te). exists (x :: xs). repeat split; auto. now constructor.
Qed.

Lemma return_type_complete ty xs x s' : return_type_syms ty xs -> sym_type x = SOp Arrow ->
  maybe_parse_return_type (xs +> [x] +> s') = Ok (ty, [x] +> s').
Proof.
  intros R Tx. unfold maybe_parse_return_type. destruct R as [|y ty xs Ty Ts]; cbn [map app peek_expect_symbol bind].
  - now rewrite Tx.
  - rewrite Ty. rewrite (proj2 (type_ok _ ty (inl x :: s'))); auto. exists xs. repeat split; auto. exists x, s'. auto.
Qed.

Lemma types_equal_ok t1 t2 : types_equal print t1 t2 = true <-> same_type print t1 t2.
Proof.
  unfold same_type. destruct t1, t2; simpl; split; try discriminate; auto.
  - intro E. apply String.eqb_eq in E. now rewrite E.
  - intro E. injection E as ->. apply String.eqb_refl.
Qed.

(** The types of the declarations so far. *)
Definition typed_so_far (m : label_type_map) (ds : list declaration) : Prop :=
  (forall l, hm_get l m = declared_type ds l) /\ one_type_each print ds.

Lemma declared_type_app ds d l : declared_type (ds ++ [d]) l =
  match declared_type ds l with Some t => Some t | None => if String.eqb (dc_label d) l then Some (dc_type d) else None end.
Proof.
  unfold declared_type. induction ds as [|d' ds IH]; simpl.
  - now destruct (String.eqb (dc_label d) l).
  - destruct (String.eqb (dc_label d') l); auto.
Qed.

Lemma declared_type_in ds d : In d ds -> exists d', In d' ds /\ dc_label d' = dc_label d /\ declared_type ds (dc_label d) = Some (dc_type d').
Proof.
  unfold declared_type. intro H. destruct (find _ ds) as [d'|] eqn:F.
  - apply find_some in F as [Hi E]. apply String.eqb_eq in E. eauto.
  - eapply find_none in F; [|exact H]. now rewrite String.eqb_refl in F.
Qed.

Lemma declared_type_some ds l t : declared_type ds l = Some t -> exists d, In d ds /\ dc_label d = l /\ dc_type d = t.
Proof.
  unfold declared_type. destruct (find _ ds) as [d'|] eqn:F; [|discriminate]. intro E. injection E as <-.
  apply find_some in F as [Hi E]. apply String.eqb_eq in E. eauto.
Qed.

Lemma add_ok m ds d : typed_so_far m ds ->
  (exists m', label_types_add print m (dc_label d) (dc_type d) = Ok m' /\ typed_so_far m' (ds ++ [d]) /\ one_type_each print (ds ++ [d])) \/
  (label_types_add print m (dc_label d) (dc_type d) = Err DifferentReturnTypes /\
   exists d', In d' ds /\ dc_label d' = dc_label d /\ ~ same_type print (dc_type d') (dc_type d)).
Proof.
  intros [G O]. unfold label_types_add. rewrite G.
  destruct (declared_type ds (dc_label d)) as [ex|] eqn:D.
  - apply declared_type_some in D as D'. destruct D' as (d' & Hd' & L' & T').
    destruct (types_equal print ex (dc_type d)) eqn:E.
    + left. apply types_equal_ok in E. exists m. cbn [negb].
      assert (O' : one_type_each print (ds ++ [d])).
      { assert (K : forall d1, In d1 ds -> dc_label d1 = dc_label d -> same_type print (dc_type d1) (dc_type d)).
        { intros d3 H3 L3. unfold same_type in *. rewrite <- E, <- T'. apply (O d3 d'); auto. congruence. }
        intros d1 d2 H1 H2 L. apply in_app_iff in H1, H2.
        destruct H1 as [H1|[<-|[]]], H2 as [H2|[<-|[]]].
        - apply O; auto.
        - apply K; auto.
        - unfold same_type in *. symmetry. apply K; auto.
        - reflexivity. }
      repeat split; auto.
      intro l. rewrite G, declared_type_app. destruct (declared_type ds l) eqn:D2; auto.
      destruct (String.eqb (dc_label d) l) eqn:El; auto. apply String.eqb_eq in El. subst l. congruence.
    + right. cbn [negb]. split.
      * destruct (dc_type d), ex; auto. simpl in E. discriminate.
      * exists d'. repeat split; auto. intro S. apply types_equal_ok in S. congruence.
  - left. exists (hm_insert_vacant (dc_label d) (dc_type d) m).
    assert (O' : one_type_each print (ds ++ [d])).
    { intros d1 d2 H1 H2 L. apply in_app_iff in H1, H2.
      assert (K : forall d1, In d1 ds -> dc_label d1 <> dc_label d).
      { intros d3 H3 L3. apply declared_type_in in H3 as (d' & _ & _ & E). congruence. }
      destruct H1 as [H1|[<-|[]]], H2 as [H2|[<-|[]]].
      - apply O; auto.
      - now apply K in H1.
      - symmetry in L. now apply K in H2.
      - reflexivity. }
    repeat split; auto. intro l. unfold hm_insert_vacant. rewrite hm_get_app, G, declared_type_app.
    destruct (declared_type ds l) eqn:D2; auto. simpl.
    destruct (String.eqb (dc_label d) l) eqn:El.
    + apply String.eqb_eq in El. subst l. destruct (eq_dec (dc_label d) (dc_label d)); congruence.
    + apply String.eqb_neq in El. destruct (eq_dec l (dc_label d)); congruence.
Qed.

Lemma declaration_sound s m rs m' s' ds : typed_so_far m ds -> production_rule_parse print s m = Ok (rs, m', s') ->
  exists d xs, s = xs +> s' /\ declaration_syms print d xs /\ rs = rules_of d /\ typed_so_far m' (ds ++ [d]).
Proof.
  intros Ty. unfold production_rule_parse. intro H.
  destruct (production_ref_parse s) as [[name s1]| | |] eqn:P1; try discriminate. cbn [bind] in H.
  destruct (maybe_parse_return_type s1) as [[ty s2]| | |] eqn:P2; try discriminate. cbn [bind] in H.
  destruct (label_types_add print m name ty) as [m1| | |] eqn:P3; try discriminate. cbn [bind] in H.
  destruct (expect_symbol_with s2 _ ExpectedArrow) as [[mt s3]| | |] eqn:P4; try discriminate. cbn [bind] in H.
  destruct (parse_rule print s3 name ty) as [[r s4]| | |] eqn:P5; try discriminate. cbn [bind] in H.
  destruct (alternatives print _ name ty [r] s4) as [[rs' s5]| | |] eqn:P6; try discriminate. cbn [bind] in H.
  injection H as -> -> ->.
  apply ref_ok in P1 as (x1 & -> & T1). apply return_type_sound in P2 as (x2 & -> & T2 & _).
  apply expect_with_ok in P4 as (x4 & -> & T4 & _). apply is_op_ok in T4.
  apply parse_rule_sound in P5 as (a & xa & -> & A & -> & _).
  assert (Q : exists al xs y, xa +> s4 = (xs ++ [y]) +> s' /\ alts_syms print al xs /\ sym_type y = SOp Semicolon /\ rs = map (prule_of name ty) al).
  { apply alternatives_sound in P6 as [(y & -> & Tsemi & ->)|(x & al & xs & y & -> & Tx & Al & Tsemi & ->)].
    - exists [a], xa, y. repeat split; auto; [now rewrite app_map_app|now constructor].
    - exists (a :: al), (xa ++ x :: xs), y. repeat split; auto.
      + rewrite <- app_map_app. f_equal. f_equal. now rewrite <- app_assoc.
      + inversion Al; subst; now apply als_more. }
  destruct Q as (al & xs & y & -> & Al & Tsemi & ->).
  set (d := mk_declaration name ty al). exists d, (x1 ++ x2 ++ x4 :: xs ++ [y]). split; [|split; [|split]].
  - change (x4 :: xs ++ [y]) with ([x4] ++ xs ++ [y]). now rewrite !app_map_app.
  - now constructor.
  - unfold rules_of, prule_of. cbn [dc_alts dc_label dc_type d]. apply map_ext. now intros [].
  - destruct (add_ok m ds d Ty) as [(m2 & E & G & _)|[E _]]; cbn [dc_label dc_type d] in E; rewrite P3 in E; [|discriminate].
    injection E as <-. exact G.
Qed.

Lemma declaration_complete d xs m ds s' : typed_so_far m ds -> declaration_syms print d xs -> one_type_each print (ds ++ [d]) ->
  exists m', production_rule_parse print (xs +> s') m = Ok (rules_of d, m', s') /\ typed_so_far m' (ds ++ [d]).
Proof.
  intros Ty H O. destruct (add_ok m ds d Ty) as [(m' & E & T' & _)|[_ (d' & Hd' & L & N)]].
  - exists m'. split; auto. destruct H as [label ty al xl xt x xa y Tl Rt Tx Al Tsemi]. cbn [dc_label dc_type] in E.
    unfold production_rule_parse. rewrite app_map_app, app_map_app.
    rewrite (proj2 (ref_ok _ label (xt +> (x :: xa ++ [y]) +> s'))) by eauto. cbn [bind].
    change (x :: xa ++ [y]) with ([x] ++ xa ++ [y]). rewrite (app_map_app [x]).
    rewrite (return_type_complete ty xt x _ Rt Tx). cbn [bind]. rewrite E. cbn [bind].
    rewrite (proj2 (expect_with_ok _ _ _ (sym_meta x) ((xa ++ [y]) +> s'))) by (exists x; rewrite is_op_ok; auto).
    cbn [bind].
    destruct Al as [a xa A|a xa x' a' al ys A Tx' Al].
    + rewrite app_map_app, (parse_rule_complete _ _ _ _ _ A) by (intros _; exists y, s'; auto). cbn [bind].
      cbn [alternatives map app expect_symbol bind]. rewrite Tsemi. destruct a. reflexivity.
    + rewrite <- app_assoc, app_map_app. cbn [app].
      rewrite (parse_rule_complete _ _ _ _ _ A) by (intros _; eexists x', _; split; [reflexivity|auto]). cbn [bind].
      rewrite (alternatives_complete _ _ _ _ Al) by (auto; rewrite length_stream; cbn [List.length]; rewrite app_length; simpl; lia).
      cbn [bind app]. unfold rules_of. cbn [dc_alts dc_label dc_type]. do 3 f_equal.
      destruct a. simpl. f_equal. destruct a'. simpl. f_equal. apply map_ext. now intros [].
  - exfalso. apply N, O; auto; apply in_app_iff; simpl; auto.
Qed.

Lemma rules_loop_sound fuel : forall m rs s m' rs' ds, typed_so_far m ds -> rules_loop print fuel m rs s = Ok (m', rs') ->
  exists ds' xs, s = map inl xs /\ declarations_syms print ds' xs /\ rs' = rs ++ flat_map rules_of ds' /\ typed_so_far m' (ds ++ ds').
Proof.
  induction fuel as [|fuel IH]; intros m rs s m' rs' ds Ty; [discriminate|]. cbn [rules_loop].
  destruct s as [|i s].
  - intro E. injection E as <- <-. exists [], []. rewrite !app_nil_r. repeat split; try constructor; apply Ty.
  - intro H. destruct (production_rule_parse print (i :: s) m) as [[[r1 m1] s1]| | |] eqn:P; try discriminate. cbn [bind] in H.
    apply (declaration_sound _ _ _ _ _ ds Ty) in P as (d & xs & -> & D & -> & Ty1).
    apply (IH _ _ _ _ _ _ Ty1) in H as (ds' & ys & -> & Ds & -> & Ty').
    exists (d :: ds'), (xs ++ ys). rewrite map_app. rewrite <- app_assoc in Ty'. repeat split; auto; try apply Ty'.
    + now constructor.
    + simpl. now rewrite <- app_assoc.
Qed.

Lemma one_type_prefix ds1 ds2 : one_type_each print (ds1 ++ ds2) -> one_type_each print ds1.
Proof. intros O d1 d2 H1 H2. apply O; apply in_app_iff; auto. Qed.

Lemma declaration_ne d xs : declaration_syms print d xs -> xs <> [].
Proof. intro H. destruct H. split_types. discriminate. Qed.

Lemma rules_loop_complete ds' xs : declarations_syms print ds' xs -> forall fuel m rs ds, typed_so_far m ds ->
  one_type_each print (ds ++ ds') -> List.length xs < fuel ->
  exists m', rules_loop print fuel m rs (map inl xs) = Ok (m', rs ++ flat_map rules_of ds') /\ typed_so_far m' (ds ++ ds').
Proof.
  induction 1 as [|d xs ds' ys D Ds IH]; intros fuel m rs ds Ty O L; (destruct fuel as [|fuel]; [lia|]).
  - exists m. rewrite !app_nil_r. auto.
  - assert (O1 : one_type_each print (ds ++ [d])).
    { apply one_type_prefix with (ds2 := ds'). now rewrite <- app_assoc. }
    destruct (declaration_complete d xs m ds (map inl ys) Ty D O1) as (m1 & P & Ty1).
    destruct (IH fuel m1 (rs ++ rules_of d) (ds ++ [d]) Ty1) as (m' & P' & Ty').
    + now rewrite <- app_assoc.
    + rewrite app_length in L. pose proof (declaration_ne _ _ D). destruct xs; [congruence|]. simpl in L. lia.
    + exists m'. rewrite <- app_assoc in Ty'. split; auto. rewrite map_app. cbn [rules_loop].
      destruct (map inl xs ++ map inl ys) as [|i q] eqn:E.
      * apply app_eq_nil in E as [E _]. pose proof (declaration_ne _ _ D). now destruct xs.
      * rewrite P. cbn [bind]. rewrite P'. simpl. now rewrite <- app_assoc.
Qed.

(** *** Options *)

Lemma remainder_sound {T} s kw (p : stream -> outcome front_error (T * stream)) v s' :
  parse_option_remainder s kw p = Ok (v, s') -> exists y s1 z, s = [y] +> s1 /\ sym_type y = SOp Colon /\ p s1 = Ok (v, [z] +> s') /\ sym_type z = SOp Semicolon.
Proof.
  unfold parse_option_remainder. intro H.
  destruct (expect_symbol_with s _ (ExpectedColon kw)) as [[m1 s1]| | |] eqn:P1; try discriminate. cbn [bind] in H.
  destruct (p s1) as [[w s2]| | |] eqn:P2; try discriminate. cbn [bind] in H.
  destruct (expect_symbol_with s2 _ (ExpectedSemicolon kw)) as [[m3 s3]| | |] eqn:P3; try discriminate. cbn [bind] in H.
  injection H as -> ->. apply expect_with_ok in P1 as (y & -> & T1 & _). apply expect_with_ok in P3 as (z & -> & T3 & _).
  apply is_op_ok in T1, T3. exists y, s1, z. auto.
Qed.

Lemma remainder_complete {T} y s1 z kw (p : stream -> outcome front_error (T * stream)) v s' :
  sym_type y = SOp Colon -> p s1 = Ok (v, [z] +> s') -> sym_type z = SOp Semicolon ->
  parse_option_remainder ([y] +> s1) kw p = Ok (v, s').
Proof.
  intros Ty P Tz. unfold parse_option_remainder. unfold expect_symbol_with at 1. cbn [map app expect_symbol bind].
  apply is_op_ok in Ty. rewrite Ty. cbn [bind]. rewrite P. cbn [bind]. unfold expect_symbol_with. cbn [map app expect_symbol bind].
  apply is_op_ok in Tz. rewrite Tz. reflexivity.
Qed.

Lemma type_option_ok {T} (f : list ttree -> T) s kw v s' :
  parse_option_remainder s kw (fun s => '(ty, s) <- type_parse s ;; Ok (f ty, s)) = Ok (v, s') <->
  exists y xs z ty, s = (y :: xs ++ [z]) +> s' /\ sym_type y = SOp Colon /\ type_syms ty xs /\ sym_type z = SOp Semicolon /\ v = f ty.
Proof.
  split.
  - intro H. apply remainder_sound in H as (y & s1 & z & -> & Ty & P & Tz).
    destruct (type_parse s1) as [[ty s2]| | |] eqn:P1; try discriminate. cbn [bind] in P. injection P as <- ->.
    apply type_ok in P1 as (xs & -> & Ts & _). exists y, xs, z, ty. repeat split; auto.
    cbn [map app]. now rewrite map_app, <- app_assoc.
  - intros (y & xs & z & ty & -> & Ty & Ts & Tz & ->). change (y :: xs ++ [z]) with ([y] ++ (xs ++ [z])). rewrite app_map_app.
    apply remainder_complete with (z := z); auto. rewrite app_map_app.
    rewrite (proj2 (type_ok _ ty ([z] +> s'))); auto. exists xs. repeat split; auto. exists z, s'. auto.
Qed.

Lemma name_ok s n s' : parse_name s = Ok (n, s') <->
  exists xs, s = xs +> s' /\ types xs = [SIdent "name"; SOp Colon; SIdent n; SOp Semicolon].
Proof.
  unfold parse_name, parse_option. split.
  - intro H. destruct (expect_symbol_with s _ _) as [[m1 s1]| | |] eqn:P1; try discriminate. cbn [bind] in H.
    apply expect_with_ok in P1 as (x & -> & T & _). apply is_name_ok in T.
    apply remainder_sound in H as (y & s2 & z & -> & Ty & P & Tz). unfold ident_parse in P.
    destruct (expect_symbol s2) as [[w s3]| | |] eqn:P2; try discriminate. cbn [bind] in P.
    destruct (sym_type w) eqn:Tw; try discriminate. injection P as -> ->. apply expect_symbol_ok in P2 as ->.
    exists [x; y; w; z]. split; auto. simpl. congruence.
  - intros (xs & -> & T). split_types. cbn [map app]. unfold expect_symbol_with. cbn [expect_symbol bind].
    apply is_name_ok in T0. rewrite T0. cbn [bind]. apply (remainder_complete x0 _ x2); auto.
    unfold ident_parse. simpl. now rewrite T2.
Qed.

Lemma keyword_eq t a b : t = SIdent a -> a <> b -> is_identifier_with_name t b = false.
Proof. intros -> N. simpl. now apply String.eqb_neq. Qed.

Lemma terminal_type_ok s tt s' : parse_terminal_symbol_type s = Ok (tt, s') <-> exists xs, s = xs +> s' /\ terminal_type_syms tt xs.
Proof.
  unfold parse_terminal_symbol_type. split.
  - destruct s as [|[x|e] s]; try discriminate. cbn [expect_symbol bind].
    destruct (is_identifier_with_name (sym_type x) "terminal") eqn:K1.
    + apply is_name_ok in K1. intro H. apply type_option_ok in H as (y & xs & z & ty & -> & Ty & Ts & Tz & ->).
      exists (x :: y :: xs ++ [z]). split; auto. now constructor.
    + destruct (is_identifier_with_name (sym_type x) "enum_terminal") eqn:K2; [|discriminate].
      apply is_name_ok in K2. intro H. apply type_option_ok in H as (y & xs & z & ty & -> & Ty & Ts & Tz & ->).
      exists (x :: y :: xs ++ [z]). split; auto. now constructor.
  - intros (xs & -> & T). destruct T as [ty xs O|ty xs O]; destruct O as [x y ty xs z Tx Ty Ts Tz]; cbn [map app expect_symbol bind].
    + rewrite (proj2 (is_name_ok _ _) Tx). apply type_option_ok. exists y, xs, z, ty. auto.
    + rewrite (keyword_eq _ _ "terminal" Tx) by discriminate. rewrite (proj2 (is_name_ok _ _) Tx).
      apply type_option_ok. exists y, xs, z, ty. auto.
Qed.

Lemma error_type_sound s et s' : maybe_parse_error_type s = Ok (et, s') ->
  exists xs, s = xs +> s' /\ error_type_syms et xs /\ (et = None -> s' <> []).
Proof.
  unfold maybe_parse_error_type. destruct s as [|[x|e] s]; try discriminate. cbn [peek_expect_symbol bind].
  destruct (is_identifier_with_name (sym_type x) "error_type") eqn:K; cbn [negb].
  - apply is_name_ok in K. intro H. apply type_option_ok in H as (y & xs & z & ty & -> & Ty & Ts & Tz & ->).
    exists (x :: y :: xs ++ [z]). repeat split; try discriminate. now repeat constructor.
  - intro E. injection E as <- <-. exists []. repeat split; try constructor. discriminate.
Qed.

Lemma error_type_complete et xs s' : error_type_syms et xs -> (et = None -> exists x q, s' = [x] +> q /\ sym_type x <> SIdent "error_type") ->
  maybe_parse_error_type (xs +> s') = Ok (et, s').
Proof.
  intros E K. unfold maybe_parse_error_type. destruct E as [|ty xs O].
  - destruct (K eq_refl) as (x & q & -> & N). cbn [map app peek_expect_symbol bind].
    destruct (is_identifier_with_name (sym_type x) "error_type") eqn:C; auto. now apply is_name_ok in C.
  - destruct O as [x y ty xs z Tx Ty Ts Tz]. cbn [map app peek_expect_symbol bind]. rewrite (proj2 (is_name_ok _ _) Tx). cbn [negb].
    apply type_option_ok. exists y, xs, z, ty. auto.
Qed.

(** *** The whole input *)

Lemma typed_nothing : typed_so_far [] [].
Proof. split; [reflexivity|]. intros d1 d2 []. Qed.

Lemma declarations_sound s d : parse_declarations print s = Ok d -> exists xs, s = map inl xs /\ declares print xs d.
Proof.
  unfold parse_declarations. intro H.
  destruct (parse_name s) as [[name s1]| | |] eqn:P1; try discriminate. cbn [bind] in H.
  destruct (parse_terminal_symbol_type s1) as [[tt s2]| | |] eqn:P2; try discriminate. cbn [bind] in H.
  destruct (maybe_parse_error_type s2) as [[et s3]| | |] eqn:P3; try discriminate. cbn [bind] in H.
  destruct (rules_loop print _ [] [] s3) as [[m rs]| | |] eqn:P4; try discriminate. cbn [bind] in H. injection H as <-.
  apply name_ok in P1 as (x1 & -> & T1). apply terminal_type_ok in P2 as (x2 & -> & T2).
  apply error_type_sound in P3 as (x3 & -> & T3 & N3).
  apply (rules_loop_sound _ _ _ _ _ _ [] typed_nothing) in P4 as (ds & x4 & -> & T4 & -> & [G O]). simpl in G, O.
  exists (x1 ++ x2 ++ x3 ++ x4). split; [now rewrite !map_app|]. exists ds. cbn. split; [|auto]. apply fs_file; auto.
  intros Et -> . specialize (N3 Et). inversion T4; subst. now apply N3.
Qed.

Lemma declarations_complete xs d : declares print xs d -> exists m,
  parse_declarations print (map inl xs) = Ok (mk_declarations (d_name d) (d_terminal_type d) (d_error_type d) m (d_rules d)) /\
  forall l, hm_get l m = hm_get l (d_label_types d).
Proof.
  intros (ds & F & O & R & G). destruct F as [xn xt xe xd Tn Tt Te Td Ne].
  destruct (rules_loop_complete ds xd Td (S (List.length (map (@inl sym front_error) xd))) [] [] [] typed_nothing O) as (m & P & [G' _]).
  { rewrite map_length. lia. }
  exists m. split; [|intro l; now rewrite G, G'].
  unfold parse_declarations. rewrite !map_app.
  rewrite (proj2 (name_ok _ (d_name d) (map inl xt ++ map inl xe ++ map inl xd))) by eauto. cbn [bind].
  rewrite (proj2 (terminal_type_ok _ (d_terminal_type d) (map inl xe ++ map inl xd))) by eauto. cbn [bind].
  rewrite (error_type_complete (d_error_type d) xe); auto.
  - cbn [bind]. rewrite P. cbn [bind app]. now rewrite R.
  - intro Et. specialize (Ne Et). destruct Td as [|d1 x1 ds' ys D Ds]; [congruence|].
    destruct D. split_types. exists x0. eexists. split; [reflexivity|]. congruence.
Qed.

End FrontEnd.
