(** The front end with spans does what the one without spans does, and reports
    errors at the right place. *)
From Coq Require Import Arith Bool String Ascii List Lia Morphisms Setoid.
From Verif Require Import Base.Prelude Spec.Grammar Model.Error Model.TokenTree Model.Terminal Model.Constructor Model.Symbol Model.FrontEnd Model.IndexedGrammar Model.LRTable.
From Verif Require Import Model.ErrorText Model.Diagnostics Spec.Macro Spec.Diagnostics Proofs.WP Proofs.Macro Proofs.MacroTotal.
From Verif Require Proofs.TextLayout.
Import ListNotations.
Open Scope string_scope.
Open Scope list_scope.

(** ** Languages *)

Definition lang := list symbol_t -> Prop.
Notation lang_eq := (pointwise_relation (list symbol_t) iff).

(** A word that matches [r], followed by a word of [K]. *)
Definition cat (r : rx) (K : lang) : lang := fun ys => exists a b, ys = a ++ b /\ matches r a /\ K b.
Definition live (K : lang) : Prop := exists ys, K ys.
Definition just_nil : lang := fun ys => ys = [].

#[global] Instance cat_proper r : Proper (lang_eq ==> lang_eq) (cat r).
Proof. intros K K' E ys. unfold cat. setoid_rewrite (E : forall x, _). reflexivity. Qed.

Lemma sym_inv p xs : matches (RSym p) xs -> exists x, xs = [x] /\ p x.
Proof. intro M. inversion M; subst; eauto. Qed.
Lemma empty_inv xs : matches REmpty xs -> xs = [].
Proof. intro M. now inversion M. Qed.
Lemma seq_inv r1 r2 xs : matches (RSeq r1 r2) xs -> exists a b, xs = a ++ b /\ matches r1 a /\ matches r2 b.
Proof. intro M. inversion M; subst; eauto. Qed.
Lemma alt_inv r1 r2 xs : matches (RAlt r1 r2) xs -> matches r1 xs \/ matches r2 xs.
Proof. intro M. inversion M; subst; eauto. Qed.
Lemma star_inv r xs : matches (RStar r) xs -> xs = [] \/ exists a b, xs = a ++ b /\ matches r a /\ matches (RStar r) b.
Proof. intro M. inversion M; subst; eauto 6. Qed.

Lemma cat_sym p K x ys : cat (RSym p) K (x :: ys) <-> p x /\ K ys.
Proof.
  split.
  - intros (a & b & E & M & Kb). apply sym_inv in M as (y & -> & P). injection E as -> ->. auto.
  - intros [P Ky]. exists [x], ys. repeat split; auto. now constructor.
Qed.
Lemma cat_sym_nil p K : ~ cat (RSym p) K [].
Proof. intros (a & b & E & M & _). apply sym_inv in M as (y & -> & _). discriminate. Qed.
Lemma cat_empty K : lang_eq (cat REmpty K) K.
Proof.
  intro ys. split.
  - intros (a & b & -> & M & Kb). apply empty_inv in M as ->. exact Kb.
  - intro Ky. exists [], ys. repeat split; auto. constructor.
Qed.
Lemma cat_seq r1 r2 K : lang_eq (cat (RSeq r1 r2) K) (cat r1 (cat r2 K)).
Proof.
  intro ys. split.
  - intros (a & b & -> & M & Kb). apply seq_inv in M as (a1 & a2 & -> & M1 & M2).
    exists a1, (a2 ++ b). rewrite app_assoc. repeat split; auto. exists a2, b. auto.
  - intros (a1 & b' & -> & M1 & a2 & b & -> & M2 & Kb). exists (a1 ++ a2), b. rewrite app_assoc. repeat split; auto. now constructor.
Qed.
Lemma cat_alt r1 r2 K ys : cat (RAlt r1 r2) K ys <-> cat r1 K ys \/ cat r2 K ys.
Proof.
  split.
  - intros (a & b & -> & M & Kb). apply alt_inv in M as [M|M]; [left|right]; exists a, b; auto.
  - intros [(a & b & -> & M & Kb)|(a & b & -> & M & Kb)]; exists a, b; repeat split; auto; [now apply m_left|now apply m_right].
Qed.
Lemma cat_star r K ys : cat (RStar r) K ys <-> K ys \/ cat r (cat (RStar r) K) ys.
Proof.
  split.
  - intros (a & b & -> & M & Kb). apply star_inv in M as [->|(a1 & a2 & -> & M1 & M2)]; [now left|].
    right. exists a1, (a2 ++ b). rewrite app_assoc. repeat split; auto. exists a2, b. auto.
  - intros [Ky|(a1 & b' & -> & M1 & a2 & b & -> & M2 & Kb)].
    + exists [], ys. repeat split; auto. constructor.
    + exists (a1 ++ a2), b. rewrite app_assoc. repeat split; auto. now constructor.
Qed.

(** Expressions that match something. *)
Fixpoint inhabited (r : rx) : Prop :=
  match r with
  | RSym p => exists x, p x
  | REmpty | RStar _ => True
  | RSeq r1 r2 => inhabited r1 /\ inhabited r2
  | RAlt r1 r2 => inhabited r1 \/ inhabited r2
  end.
Lemma inhabited_ok r : inhabited r -> exists xs, matches r xs.
Proof.
  induction r as [p| |r1 IH1 r2 IH2|r1 IH1 r2 IH2|r IH]; simpl.
  - intros [x P]. exists [x]. now constructor.
  - intros _. exists []. constructor.
  - intros [I1 I2]. destruct (IH1 I1) as [xs M1], (IH2 I2) as [ys M2]. exists (xs ++ ys). now constructor.
  - intros [I|I]; [destruct (IH1 I) as [xs M]|destruct (IH2 I) as [xs M]]; exists xs; [now apply m_left|now apply m_right].
  - intros _. exists []. constructor.
Qed.
Lemma live_cat r K : inhabited r -> live K -> live (cat r K).
Proof. intros I [ys Ky]. apply inhabited_ok in I as [xs M]. exists (xs ++ ys), xs, ys. auto. Qed.

Lemma inh_ref : inhabited a_ref.
Proof. split; [simpl; eauto|]. split; [exists (SIdent ""), ""; reflexivity|]. split; [simpl; eauto|exact I]. Qed.
Lemma inh_node : inhabited a_node.
Proof. left. exact inh_ref. Qed.
Lemma inh_alternative : inhabited an_alternative.
Proof. split; [exact inh_node|]. split; [exact I|now left]. Qed.
Lemma inh_alternatives : inhabited alternatives_rx.
Proof. split; [exact inh_alternative|exact I]. Qed.
Lemma inh_type : inhabited a_type.
Proof. split; [exists (SOp Bang); exact I|exact I]. Qed.
Lemma inh_declaration : inhabited a_declaration.
Proof.
  split; [exact inh_ref|]. split; [now left|]. split; [simpl; eauto|]. split; [exact inh_alternatives|]. split; [simpl; eauto|exact I].
Qed.
Lemma inh_option n r : inhabited r -> inhabited (an_option n r).
Proof. intro Hr. split; [simpl; eauto|]. split; [simpl; eauto|]. split; [exact Hr|]. split; [simpl; eauto|exact I]. Qed.

Section Spans.
Context {span : Type} (call_site : span) (join_spans : span -> span -> option span).
Variable print : list ttree -> string.

Notation symbol_at := (symbol_at span).
Notation items := (items span).
Notation diag := (diag span).
Notation sp_stream := (sp_stream span).
Notation ty := (at_type span).
Notation located := (located call_site join_spans print).

(** ** States of the parser *)

Definition same_symbol (x : symbol_at) (y : sym) : Prop := sym_type y = ty x /\ sym_meta y = tokens_of x.

Definition same_item (i : symbol_at + diag) (j : sym + front_error) : Prop :=
  match i, j with
  | inl x, inl y => same_symbol x y
  | inr d, inr e => dg_message span d = error_text e /\ token_error e
  | _, _ => False
  end.

Definition current_in (s : sp_stream) (pre : list symbol_at) : Prop :=
  forall sp, ss_current_span span s = Some sp -> In sp (map span_of pre).

(** The symbols [pre] have been read, [s] and [t] are left; the words of [D] are
    continuations of [pre], and the only ones that begin like [s]. *)
Record state (all : items) (pre : list symbol_at) (s : sp_stream) (t : stream) (D : lang) : Prop := {
  st_all : all = map inl pre ++ ss_iter span s;
  st_same : Forall2 same_item (ss_iter span s) t;
  st_cur : current_in s pre;
  st_sound : forall ys, D ys -> matches a_file (types_at pre ++ ys);
  st_complete : forall x r ys, ss_iter span s = inl x :: r -> matches a_file (types_at pre ++ ty x :: ys) -> D (ty x :: ys);
  st_end : ss_iter span s = [] -> matches a_file (types_at pre) -> D [];
  st_live : live D;
}.

(** The same when the symbol [x] has just been read. *)
Record seen (all : items) (pre : list symbol_at) (x : symbol_at) (s : sp_stream) (t : stream) (D : lang) : Prop := {
  sn_all : all = map inl pre ++ inl x :: ss_iter span s;
  sn_same : Forall2 same_item (ss_iter span s) t;
  sn_cur : current_in s (pre ++ [x]);
  sn_sound : forall ys, D ys -> matches a_file (types_at pre ++ ys);
  sn_complete : forall ys, matches a_file (types_at pre ++ ty x :: ys) -> D (ty x :: ys);
  sn_live : live D;
}.

#[local] Instance state_proper all pre s t : Proper (lang_eq ==> iff) (state all pre s t).
Proof.
  assert (H : forall D D', lang_eq D D' -> state all pre s t D -> state all pre s t D').
  { intros D D' E [H1 H2 H3 H4 H5 H6 [ys H7]]. constructor; auto.
    - intros us Hu. apply H4. now apply E.
    - intros x r us Hr Hu. apply E. eauto.
    - intros Hr Hu. apply E. auto.
    - exists ys. now apply E. }
  intros D D' E. split; apply H; [exact E|now symmetry].
Qed.

Lemma types_app (xs ys : list symbol_at) : types_at (xs ++ ys) = types_at xs ++ types_at ys.
Proof. apply map_app. Qed.

Lemma state_starts all pre s t (D : lang) : state all pre s t D -> starts (types_at pre).
Proof. intros St. destruct (st_live _ _ _ _ _ St) as [ys Hy]. exists ys. eapply st_sound; eauto. Qed.

Lemma starts_prefix xs ys : starts (xs ++ ys) -> starts xs.
Proof. intros [us M]. exists (ys ++ us). now rewrite app_assoc. Qed.

(** Fewer continuations are left, but none of those that begin like the
    stream is lost. *)
Lemma state_narrow all pre s t (D D' : lang) : state all pre s t D -> (forall ys, D' ys -> D ys) ->
  (forall x r ys, ss_iter span s = inl x :: r -> D (ty x :: ys) -> D' (ty x :: ys)) ->
  (ss_iter span s = [] -> D [] -> D' []) -> live D' -> state all pre s t D'.
Proof. intros [H1 H2 H3 H4 H5 H6 H7] S C N L. constructor; eauto. Qed.

Lemma seen_step all pre x s t (D D' : lang) : seen all pre x s t D -> (forall ys, D (ty x :: ys) <-> D' ys) -> live D' ->
  state all (pre ++ [x]) s t D'.
Proof.
  intros [H1 H2 H3 H4 H5 H6] E L. constructor; auto.
  - rewrite map_app, <- app_assoc. exact H1.
  - intros ys Hy. rewrite types_app, <- app_assoc. apply H4. now apply E.
  - intros y r ys Hr M. rewrite types_app, <- app_assoc in M. apply E, H5, M.
  - intros Hr M. rewrite types_app in M. apply E, H5, M.
Qed.

Lemma seen_bad all pre x s t (D : lang) e : seen all pre x s t D -> (forall ys, ~ D (ty x :: ys)) ->
  e = UnexpectedToken \/ (exists t, asks_for e t) -> (forall t, asks_for e t -> exists ys, D (t :: ys)) ->
  located all e (mk_diag span (error_text e) (span_of x)).
Proof.
  intros [H1 H2 H3 H4 H5 [ys H6]] N A W. rewrite H1. apply l_symbol; auto.
  - exists ys. auto.
  - rewrite types_app. intros [us M]. rewrite <- app_assoc in M. apply (N us), H5, M.
  - intros u Au. destruct (W u Au) as [us Hu]. exists us. rewrite <- app_assoc. now apply H4.
  - constructor.
Qed.

(** ** Both parsers *)

Definition post {A B} (all : items) (m : outcome diag (A * sp_stream)) (n : outcome front_error (B * stream))
  (Q : A -> sp_stream -> B -> stream -> Prop) : Prop :=
  match m, n with
  | Ok (a, s), Ok (b, t) => Q a s b t
  | Err d, Err e => located all e d
  | Panic w, Panic w' => w = w'
  | Diverge, Diverge => True
  | _, _ => False
  end.

Lemma post_bind {A B A' B'} all m n (k : A * sp_stream -> outcome diag (A' * sp_stream))
  (l : B * stream -> outcome front_error (B' * stream)) Q R :
  post all m n Q -> (forall a s b t, Q a s b t -> post all (k (a, s)) (l (b, t)) R) -> post all (bind m k) (bind n l) R.
Proof. destruct m as [[a s]| | |], n as [[b t]| | |]; simpl; auto; contradiction. Qed.

Lemma post_weaken {A B} all m n (Q R : A -> sp_stream -> B -> stream -> Prop) : post all m n Q ->
  (forall a s b t, Q a s b t -> R a s b t) -> post all m n R.
Proof. destruct m as [[a s]| | |], n as [[b t]| | |]; simpl; auto. Qed.

Lemma located_note its e d note : located its e d ->
  located its e (mk_diag span (dg_message span d ++ ": " ++ note)%string (dg_span span d)).
Proof. intro Loc. destruct Loc; simpl; econstructor; eauto; now constructor. Qed.

Lemma post_intercept {A B} all m n note (Q : A -> sp_stream -> B -> stream -> Prop) :
  post all m n Q -> post all (intercept span note m) n Q.
Proof. destruct m as [[a s]|d| |], n as [[b t]|e| |]; simpl; auto. apply located_note. Qed.

Lemma end_located all pre s t (D : lang) : state all pre s t D -> ss_iter span s = [] -> ~ D [] ->
  located all UnexpectedEnd
    (mk_diag span "Unexpected end of input" (match ss_current_span span s with Some sp => sp | None => call_site end)).
Proof.
  intros St E N. rewrite (st_all _ _ _ _ _ St), E, app_nil_r. apply l_end.
  - eapply state_starts; eauto.
  - intro M. apply N. eapply st_end; eauto.
  - constructor.
  - destruct (ss_current_span span s) eqn:C; [right; eapply st_cur; eauto|now left].
Qed.

Lemma expect_post all pre s t (D : lang) : state all pre s t D -> ~ D [] ->
  post all (sp_expect_symbol span call_site s) (expect_symbol t)
    (fun x s' y t' => same_symbol x y /\ seen all pre x s' t' D).
Proof.
  intros St N. unfold sp_expect_symbol, expect_symbol. pose proof (st_same _ _ _ _ _ St) as Sm.
  destruct (ss_iter span s) as [|[x|d] r] eqn:E; inversion Sm as [|i j r' t' Si Sr]; subst.
  - exact (end_located _ _ _ _ _ St E N).
  - destruct j as [y|e]; [|contradiction]. simpl in *. split; [exact Si|].
    destruct St as [H1 H2 H3 H4 H5 H6 H7]. constructor; simpl; auto.
    + now rewrite <- E.
    + intros sp C. rewrite map_app. apply in_or_app. left. now apply H3.
    + intros ys M. eapply H5; eauto.
  - destruct j as [y|e]; [contradiction|]. simpl in *.
    destruct d as [m sp]. rewrite (st_all _ _ _ _ _ St), E. simpl in Si. destruct Si as [Si Te].
    apply (l_bad call_site join_spans print pre (mk_diag span m sp)); auto.
    + eapply state_starts; eauto.
    + constructor.
Qed.

Lemma peek_post all pre s t (D : lang) : state all pre s t D -> ~ D [] ->
  post all (sp_peek_expect_symbol span call_site s) (peek_expect_symbol t)
    (fun x s' y t' => same_symbol x y /\ ss_iter span s = inl x :: ss_iter span s' /\ seen all pre x s' t' D).
Proof.
  intros St N. unfold sp_peek_expect_symbol, peek_expect_symbol. pose proof (st_same _ _ _ _ _ St) as Sm.
  destruct (ss_iter span s) as [|[x|d] r] eqn:E; inversion Sm as [|i j r' t' Si Sr]; subst.
  - exact (end_located _ _ _ _ _ St E N).
  - destruct j as [y|e]; [|contradiction]. simpl in *. split; [exact Si|]. split; [reflexivity|].
    destruct St as [H1 H2 H3 H4 H5 H6 H7]. constructor; simpl; auto.
    + now rewrite <- E.
    + intros sp C. injection C as <-. rewrite map_app. apply in_or_app. right. now left.
    + intros ys M. eapply H5; eauto.
  - destruct j as [y|e]; [contradiction|]. simpl in *.
    destruct d as [m sp]. rewrite (st_all _ _ _ _ _ St), E. simpl in Si. destruct Si as [Si Te].
    apply (l_bad call_site join_spans print pre (mk_diag span m sp)); auto.
    + eapply state_starts; eauto.
    + constructor.
Qed.

Lemma with_post all pre s t (p : symbol_t -> Prop) K cmp e : state all pre s t (cat (RSym p) K) -> live K ->
  (forall u, cmp u = true <-> p u) -> (exists u, asks_for e u) -> (forall u, asks_for e u -> p u) ->
  post all (sp_expect_symbol_with span call_site s cmp (error_text e)) (expect_symbol_with t cmp e)
    (fun m s' n t' => exists x, m = at_meta span x /\ n = tokens_of x /\ p (ty x) /\ state all (pre ++ [x]) s' t' K).
Proof.
  intros St L C A W. unfold sp_expect_symbol_with, expect_symbol_with.
  eapply post_bind; [apply (expect_post _ _ _ _ _ St); apply cat_sym_nil|].
  intros x s' y t' [[Ty Tm] Sn]. cbv beta iota. rewrite Ty, Tm. destruct (cmp (ty x)) eqn:Cx.
  - apply C in Cx. simpl. exists x. do 3 (split; [now auto|]).
    eapply seen_step; [exact Sn| |exact L]. intro ys. rewrite cat_sym. tauto.
  - simpl. eapply seen_bad; [exact Sn| | |]; auto.
    + intros ys H. apply cat_sym in H as [H _]. apply C in H. congruence.
    + intros u Au. destruct L as [ys Ky]. exists ys. apply cat_sym. auto.
Qed.

Ltac bind_with H := eapply post_bind; [exact H|cbv beta iota].

(** ** Types *)

Notation merge := (merge span join_spans).
Definition merged (m : meta span) (xs : list symbol_at) : meta span := fold_left merge (map (at_meta span) xs) m.

Definition ends_types (K : lang) : Prop := forall ys, K ys -> exists u us, ys = u :: us /\ (u = SOp Arrow \/ u = SOp Semicolon).
Definition type_stop (s : sp_stream) : Prop :=
  exists y r, ss_iter span s = inl y :: r /\ (ty y = SOp Arrow \/ ty y = SOp Semicolon).

Lemma type_rest_peek n t : type_rest n t =
  bind (peek_expect_symbol t) (fun '(x, t') =>
    if is_op (sym_type x) Arrow || is_op (sym_type x) Semicolon then Ok (n, t) else type_rest (n ++ sym_meta x) t').
Proof. destruct t as [|[x|e] t]; reflexivity. Qed.

Lemma type_rest_post all K : ends_types K -> live K -> forall fuel m n s t pre, List.length (ss_iter span s) < fuel ->
  state all pre s t (cat (RStar (RSym in_type)) K) ->
  post all (sp_type_rest span call_site join_spans fuel m s) (type_rest n t)
    (fun m' s' n' t' => exists xs, Forall in_type (types_at xs) /\ m' = merged m xs /\
       n' = n ++ flat_map tokens_of xs /\ state all (pre ++ xs) s' t' K /\ type_stop s').
Proof.
  intros EK LK fuel. induction fuel as [|fuel IH]; intros m n s t pre F St; [lia|].
  cbn [sp_type_rest]. rewrite type_rest_peek.
  assert (N : ~ cat (RStar (RSym in_type)) K []).
  { rewrite cat_star. intros [H|H]; [apply EK in H as (u & us & E & _); discriminate|now apply cat_sym_nil in H]. }
  eapply post_bind; [apply post_intercept, (peek_post _ _ _ _ _ St N)|].
  intros x s' y t' ([Ty Tm] & Es & Sn). cbv beta iota. rewrite Ty, Tm.
  destruct (is_op (ty x) Arrow || is_op (ty x) Semicolon) eqn:C.
  - simpl. exists []. split; [constructor|]. split; [reflexivity|]. split; [now rewrite app_nil_r|]. rewrite app_nil_r.
    assert (X : ty x = SOp Arrow \/ ty x = SOp Semicolon) by (apply orb_prop in C as [C|C]; apply is_op_ok in C; auto).
    split; [|exists x, (ss_iter span s'); auto].
    eapply state_narrow; [exact St| | | |exact LK].
    + intros ys Ky. apply cat_star. now left.
    + intros x' r ys E D. rewrite Es in E. injection E as <- <-. apply cat_star in D as [D|D]; [exact D|].
      apply cat_sym in D as [[I1 I2] _]. destruct X; contradiction.
    + intro E. rewrite E in Es. discriminate.
  - apply orb_false_elim in C as [C1 C2]. apply is_op_no in C1, C2.
    assert (St' : state all (pre ++ [x]) s' t' (cat (RStar (RSym in_type)) K)).
    { eapply seen_step; [exact Sn| |].
      - intro ys. rewrite cat_star, cat_sym. unfold in_type. split; [|now auto].
        intros [H|[_ H]]; [|exact H]. apply EK in H as (u & us & E & H). injection E as E1 E2. rewrite <- E1 in H. destruct H; contradiction.
      - apply live_cat; [exact I|exact LK]. }
    eapply post_weaken; [apply (IH (merge m (at_meta span x)) (n ++ tokens_of x)); [|exact St']|].
    + rewrite Es in F. simpl in F. lia.
    + intros m' s'' n' t'' (xs & Fx & -> & -> & St'' & Sp). exists (x :: xs). rewrite <- app_assoc in St''.
      split; [constructor; [split; assumption|exact Fx]|]. split; [reflexivity|]. split; [simpl; now rewrite app_assoc|].
      split; [exact St''|exact Sp].
Qed.

Lemma type_post all K pre s t : ends_types K -> live K -> state all pre s t (cat a_type K) ->
  post all (sp_type_parse span call_site join_spans s) (type_parse t)
    (fun m s' n t' => exists x xs, Forall in_type (types_at xs) /\ m = merged (at_meta span x) xs /\
       n = flat_map tokens_of (x :: xs) /\ state all (pre ++ x :: xs) s' t' K /\ type_stop s').
Proof.
  intros EK LK St. unfold sp_type_parse, type_parse. unfold a_type in St. rewrite cat_seq in St.
  eapply post_bind; [apply (expect_post _ _ _ _ _ St), cat_sym_nil|].
  intros x s' y t' [[Ty Tm] Sn]. cbv beta iota. rewrite Tm.
  assert (St' : state all (pre ++ [x]) s' t' (cat (RStar (RSym in_type)) K)).
  { eapply seen_step; [exact Sn| |].
    - intro ys. rewrite cat_sym. tauto.
    - apply live_cat; [exact I|exact LK]. }
  eapply post_weaken; [apply (type_rest_post all K EK LK _ (at_meta span x) (tokens_of x) _ _ _ (Nat.lt_succ_diag_r _) St')|].
  intros m s'' n t'' (xs & F & -> & -> & St'' & Sp). exists x, xs. rewrite <- app_assoc in St''. auto.
Qed.

Lemma type_matches (x : symbol_at) xs : Forall in_type (types_at xs) -> matches a_type (types_at (x :: xs)).
Proof.
  intro F. apply (m_seq _ _ [ty x] (types_at xs)); [now constructor|].
  induction F as [|u us Iu F IH]; [constructor|]. apply (m_star_cons _ [u] us); [now constructor|exact IH].
Qed.

Lemma ident_post all K pre s t : live K -> state all pre s t (cat an_ident K) ->
  post all (sp_ident_parse span call_site s) (ident_parse t)
    (fun n s' n' t' => exists x, n' = n /\ ty x = SIdent n /\ state all (pre ++ [x]) s' t' K).
Proof.
  intros LK St. unfold sp_ident_parse, ident_parse.
  eapply post_bind; [apply (expect_post _ _ _ _ _ St), cat_sym_nil|].
  intros x s' y t' [[Ty Tm] Sn]. cbv beta iota. rewrite Ty.
  assert (Bad : (forall n, ty x <> SIdent n) -> located all ExpectedIdentifier (mk_diag span (error_text ExpectedIdentifier) (span_of x))).
  { intro N. eapply seen_bad; [exact Sn| | |].
    - intros ys H. apply cat_sym in H as [[n H] _]. now apply N in H.
    - right. exists (SIdent ""). constructor.
    - intros u A. inversion A; subst. destruct LK as [ys Ky]. exists ys. apply cat_sym. eauto. }
  destruct (ty x) as [o|n|l|d ts|ts|ts] eqn:Tx; try (apply Bad; discriminate).
  simpl. exists x. split; [reflexivity|]. split; [exact Tx|]. eapply seen_step; [exact Sn| |exact LK].
  intro ys. unfold an_ident. rewrite cat_sym, Tx. split; [intros [_ H]; exact H|intro H; eauto].
Qed.

(** ** References *)

Lemma ref_post all K pre s t : live K -> state all pre s t (cat a_ref K) ->
  post all (sp_production_ref_parse span call_site join_spans s) (production_ref_parse t)
    (fun nm s' n' t' => exists xs, n' = fst nm /\ ref_syms (fst nm) xs /\ state all (pre ++ xs) s' t' K).
Proof.
  intros LK St. unfold sp_production_ref_parse, production_ref_parse. unfold a_ref in St. cbn [seq_of fold_right] in St.
  rewrite !cat_seq, cat_empty in St.
  assert (L1 : live (cat (op EndProd) K)) by (apply live_cat; [simpl; eauto|exact LK]).
  assert (L2 : live (cat an_ident (cat (op EndProd) K))) by (apply live_cat; [exists (SIdent ""), ""; reflexivity|exact L1]).
  eapply post_bind.
  { apply (with_post _ _ _ _ _ _ _ ExpectedBeginProd St L2).
    - intro u. rewrite is_op_ok. split; congruence.
    - eexists; constructor.
    - intros u A. now inversion A. }
  intros m s1 n1 t1 (x1 & -> & -> & T1 & St1). cbv beta iota.
  eapply post_bind; [apply (expect_post _ _ _ _ _ St1), cat_sym_nil|].
  intros x2 s2 y2 t2 [[Ty2 Tm2] Sn2]. cbv beta iota. rewrite Ty2.
  assert (Bad : (forall n, ty x2 <> SIdent n) -> located all ExpectedProductionName (mk_diag span (error_text ExpectedProductionName) (span_of x2))).
  { intro N. eapply seen_bad; [exact Sn2| | |].
    - intros ys H. apply cat_sym in H as [[n H] _]. now apply N in H.
    - right. exists (SIdent ""). constructor.
    - intros u A. inversion A; subst. destruct L1 as [ys Ky]. exists ys. apply cat_sym. eauto. }
  destruct (ty x2) as [o|n|l|d ts|ts|ts] eqn:Tx; try (apply Bad; discriminate). clear Bad. cbn [bind].
  assert (St2 : state all ((pre ++ [x1]) ++ [x2]) s2 t2 (cat (op EndProd) K)).
  { eapply seen_step; [exact Sn2| |exact L1]. intro ys. unfold an_ident. rewrite cat_sym, Tx. split; [intros [_ H]; exact H|intro H; eauto]. }
  eapply post_bind.
  { apply (with_post _ _ _ _ _ _ _ ExpectedEndProd St2 LK).
    - intro u. rewrite is_op_ok. split; congruence.
    - eexists; constructor.
    - intros u A. now inversion A. }
  intros m3 s3 n3 t3 (x3 & -> & -> & T3 & St3). simpl. exists [x1; x2; x3].
  split; [reflexivity|]. split; [unfold ref_syms; simpl; now rewrite <- T1, Tx, <- T3|].
  now rewrite <- !app_assoc in St3.
Qed.

Lemma ref_matches label (xs : list symbol_at) : ref_syms label xs -> matches a_ref (types_at xs).
Proof.
  intro E. rewrite E. apply (m_seq _ _ [_] [_; _]); [now constructor|]. apply (m_seq _ _ [_] [_]); [constructor; eauto|].
  apply (m_seq _ _ [_] []); [now constructor|constructor].
Qed.

(** ** Nodes *)

Definition no_paren_first (K : lang) : Prop := forall ys, K ys -> exists u us, ys = u :: us /\ forall ts, u <> SParen ts.

Lemma node_head K u ys : cat a_node K (u :: ys) <->
  match u with
  | SOp BeginProd => cat a_ref K (u :: ys)
  | SLiteral _ | SOp Bang => K ys
  | SIdent _ => cat (maybe a_paren) K ys
  | _ => False
  end.
Proof.
  unfold a_node, a_literal, op. rewrite !cat_alt.
  rewrite (cat_seq an_ident (maybe a_paren) K (u :: ys)). unfold an_ident. rewrite !cat_sym.
  assert (R : cat a_ref K (u :: ys) -> u = SOp BeginProd).
  { intro H. unfold a_ref in H. cbn [seq_of fold_right] in H. apply (proj1 (cat_seq _ _ _ _)) in H. apply cat_sym in H as [H _]. now symmetry. }
  split.
  - intros [H|[[[l ->] H]|[[[n ->] H]|[<- H]]]]; auto. pose proof (R H) as E. subst u. exact H.
  - destruct u as [[]|n|l|d ts|ts|ts]; try contradiction; intro H; eauto 6.
Qed.

Lemma node_not_nil K : ~ cat a_node K [].
Proof.
  unfold a_node, a_literal, op. rewrite !cat_alt. intros [H|[H|[H|H]]]; try now apply cat_sym_nil in H.
  - unfold a_ref in H. cbn [seq_of fold_right] in H. apply (proj1 (cat_seq _ _ _ _)) in H. now apply cat_sym_nil in H.
  - apply (proj1 (cat_seq _ _ _ _)) in H. now apply cat_sym_nil in H.
Qed.

Definition node_seg (nd : node_at span) (xs : list symbol_at) : Prop :=
  matches a_node (types_at xs) /\
  if pnode_is_epsilon (fst nd) then exists x, xs = [x] /\ ty x = SOp Bang /\ snd nd = at_meta span x
  else ~ In (SOp Bang) (types_at xs).

Lemma node_post all K pre s t : no_paren_first K -> live K -> state all pre s t (cat a_node K) ->
  post all (sp_production_node_parse span call_site join_spans print s) (production_node_parse print t)
    (fun nd s' n t' => exists xs, n = fst nd /\ node_seg nd xs /\ state all (pre ++ xs) s' t' K).
Proof.
  intros PK LK St. unfold sp_production_node_parse, production_node_parse.
  eapply post_bind; [apply (peek_post _ _ _ _ _ St), node_not_nil|].
  intros x s' y t' ([Ty Tm] & Es & Sn). cbv beta iota. rewrite Ty. clear Ty Tm y.
  assert (Term : ty x <> SOp BeginProd -> post all (sp_terminal_parse span call_site print s) (terminal_parse print t)
    (fun nd s' n t' => exists xs, n = fst nd /\ node_seg nd xs /\ state all (pre ++ xs) s' t' K)).
  { intro NB. unfold sp_terminal_parse, terminal_parse.
    pose proof (expect_post _ _ _ _ _ St (node_not_nil K)) as Ex. revert Ex. unfold sp_expect_symbol. rewrite Es.
    destruct t as [|[y|e] t1]; try contradiction. cbn [expect_symbol post bind]. intros [[Ty Tm] Sx].
    rewrite Ty. set (s1 := mk_stream span (ss_iter span s') (ss_current_span span s)) in *. clearbody s1.
    assert (Bad : (forall ys, ~ cat a_node K (ty x :: ys)) -> located all UnexpectedToken (mk_diag span (error_text UnexpectedToken) (span_of x))).
    { intro N. eapply seen_bad; [exact Sx|exact N|now left|]. intros u A. inversion A. }
    assert (One : (forall ys, cat a_node K (ty x :: ys) <-> K ys) -> state all (pre ++ [x]) s1 t1 K).
    { intro E. eapply seen_step; [exact Sx|exact E|exact LK]. }
    destruct (ty x) as [o|n|l|d ts|ts|ts] eqn:Tx; try (apply Bad; intros ys H; apply node_head in H; exact H).
    - destruct o; try contradiction; try (apply Bad; intros ys H; apply node_head in H; exact H).
      simpl. exists [x]. split; [reflexivity|]. split; [|apply One; intro ys; now rewrite node_head].
      split; [simpl; rewrite Tx; do 3 apply m_right; now constructor|]. simpl. eauto.
    - unfold sp_parse_ident, parse_ident.
      assert (S1 : state all (pre ++ [x]) s1 t1 (cat (maybe a_paren) K)).
      { eapply seen_step; [exact Sx| |apply live_cat; [now left|exact LK]]. intro ys. now rewrite Tx, node_head. }
      assert (N1 : ~ cat (maybe a_paren) K []).
      { unfold maybe, a_paren. rewrite cat_alt. intros [H|H]; [|now apply cat_sym_nil in H].
        apply (proj1 (cat_empty _ _)) in H. apply PK in H as (u & us & E & _). discriminate. }
      eapply post_bind; [apply (peek_post _ _ _ _ _ S1 N1)|].
      intros x2 s2 y2 t2 ([Ty2 Tm2] & Es2 & Sn2). cbv beta iota. rewrite Ty2. clear Ty2 Tm2 y2.
      assert (Plain : (forall ts, ty x2 <> SParen ts) -> exists xs, PNSymbol (mk_symbol n PGNone) = fst (PNSymbol (mk_symbol n PGNone), at_meta span x) /\
        node_seg (PNSymbol (mk_symbol n PGNone), at_meta span x) xs /\ state all (pre ++ xs) s1 t1 K).
      { intro NP. exists [x]. split; [reflexivity|]. split.
        - split; [|simpl; rewrite Tx; intros [H|[]]; discriminate].
          simpl. rewrite Tx. apply m_right, m_right, m_left. apply (m_seq _ _ [_] []); [constructor; eauto|apply m_left; constructor].
        - eapply state_narrow; [exact S1| | | |exact LK].
          + intros ys Ky. apply cat_alt. left. now apply cat_empty.
          + intros x' r ys E D. rewrite Es2 in E. injection E as <- <-. apply cat_alt in D as [D|D]; [now apply (proj1 (cat_empty _ _)) in D|].
            apply cat_sym in D as [[ts D] _]. now apply NP in D.
          + intro E. rewrite E in Es2. discriminate. }
      destruct (ty x2) as [o|n2|l|d ts|ts|ts] eqn:Tx2; try (apply Plain; discriminate). clear Plain.
      assert (S2 : state all (pre ++ [x; x2]) s2 t2 K).
      { replace (pre ++ [x; x2]) with ((pre ++ [x]) ++ [x2]) by now rewrite <- app_assoc.
        eapply seen_step; [exact Sn2| |exact LK]. intro ys. unfold maybe, a_paren. rewrite Tx2, cat_alt, cat_sym.
        rewrite (cat_empty K (SParen ts :: ys)). split; [|now eauto].
        intros [H|[_ H]]; [|exact H]. apply PK in H as (u & us & E & H). injection E as <- _. now elim (H ts). }
      assert (M2 : matches a_node (types_at [x; x2])).
      { simpl. rewrite Tx, Tx2. apply m_right, m_right, m_left. apply (m_seq _ _ [_] [_]); [constructor; eauto|].
        apply m_right. constructor. eauto. }
      assert (NB2 : ~ In (SOp Bang) (types_at [x; x2])) by (simpl; rewrite Tx, Tx2; intros [H|[H|[]]]; discriminate).
      destruct (is_wildcard ts); simpl; exists [x; x2]; (split; [reflexivity|split; [split; [exact M2|exact NB2]|exact S2]]).
    - simpl. exists [x]. split; [reflexivity|]. split; [|apply One; intro ys; now rewrite node_head].
      split; [|simpl; rewrite Tx; intros [H|[]]; discriminate]. simpl. rewrite Tx. apply m_right, m_left. constructor. eauto. }
  destruct (ty x) as [o|n|l|d ts|ts|ts] eqn:Tx; try (apply Term; discriminate).
  destruct o; try (apply Term; discriminate). clear Term.
  assert (St' : state all pre s t (cat a_ref K)).
  { eapply state_narrow; [exact St| | | |apply live_cat; [exact inh_ref|exact LK]].
    - intros ys H. apply cat_alt. now left.
    - intros x' r ys E D. rewrite Es in E. injection E as <- <-. rewrite Tx in *. now apply node_head in D.
    - intro E. rewrite E in Es. discriminate. }
  eapply post_bind; [apply (ref_post _ _ _ _ _ LK St')|].
  intros [nm mt] s2 n' t2 (xs & -> & R & St2). simpl in *. exists xs. split; [reflexivity|]. split; [|exact St2].
  split.
  - apply m_left. eapply ref_matches; eauto.
  - simpl. rewrite R. intros [H|[H|[H|[]]]]; discriminate.
Qed.

(** ** Alternatives *)

Inductive nodes_at : list (node_at span) -> list symbol_at -> Prop :=
| na_nil : nodes_at [] []
| na_cons nd xs nds ys : node_seg nd xs -> nodes_at nds ys -> nodes_at (nd :: nds) (xs ++ ys).

Definition ends_alternative (K : lang) : Prop := forall ys, K ys -> exists u us, ys = u :: us /\ (u = SOp Semicolon \/ u = SOp Pipe).

Definition more_nodes (K : lang) : lang := cat (RStar a_node) (cat (maybe a_block) K).

Lemma more_nodes_head K u ys : ends_alternative K -> more_nodes K (u :: ys) <->
  match u with
  | SOp Semicolon | SOp Pipe => K (u :: ys)
  | SGroup _ _ => K ys
  | _ => cat a_node (more_nodes K) (u :: ys)
  end.
Proof.
  intro EK. unfold more_nodes at 1. rewrite cat_star. fold (more_nodes K). unfold maybe, a_block. rewrite cat_alt, cat_sym.
  rewrite (cat_empty K (u :: ys)). rewrite node_head.
  assert (X : K (u :: ys) -> u = SOp Semicolon \/ u = SOp Pipe).
  { intro H. apply EK in H as (u' & us & E & H). now injection E as -> _. }
  split.
  - intros [[H|[(d & ts & ->) H]]|H].
    + destruct (X H) as [->| ->]; exact H.
    + exact H.
    + destruct u as [[]|n|l|d ts|ts|ts]; try contradiction; apply node_head; exact H.
  - destruct u as [[]|n|l|d ts|ts|ts]; intro H; try apply node_head in H; eauto 6.
Qed.

Lemma more_nodes_nil K : ends_alternative K -> ~ more_nodes K [].
Proof.
  intro EK. unfold more_nodes. rewrite cat_star. unfold maybe, a_block. rewrite cat_alt. intros [[H|H]|H].
  - apply (proj1 (cat_empty _ _)) in H. apply EK in H as (u & us & E & _). discriminate.
  - now apply cat_sym_nil in H.
  - now apply node_not_nil in H.
Qed.

Lemma more_nodes_first K : ends_alternative K -> no_paren_first (more_nodes K).
Proof.
  intros EK [|u ys] H; [now apply more_nodes_nil in H|]. exists u, ys. split; [reflexivity|]. intros ts ->.
  apply more_nodes_head in H; auto. now apply node_head in H.
Qed.

Lemma inside_ok x d ts : ty x = SGroup d ts -> map (st_tree span) (at_inside span x) = ts.
Proof. unfold at_type. destruct (at_kind span x); try discriminate. now intros [= _ <-]. Qed.

Lemma rule_loop_post all K : ends_alternative K -> live K -> forall fuel m rule s t pre,
  state all pre s t (more_nodes K) ->
  post all (sp_rule_loop span call_site join_spans print fuel m rule s) (rule_loop print fuel (map fst rule) t)
    (fun r s' r' t' => exists new xs ys, snd (fst r) = rule ++ new /\ r' = (map fst (rule ++ new), option_map (block_tree span) (snd r)) /\ nodes_at new xs /\
       matches (maybe a_block) (types_at ys) /\ state all (pre ++ xs ++ ys) s' t' K).
Proof.
  intros EK LK fuel. induction fuel as [|fuel IH]; intros m rule s t pre St; [exact I|].
  assert (LM : live (more_nodes K)) by (apply live_cat; [exact I|]; apply live_cat; [now left|exact LK]).
  cbn [sp_rule_loop rule_loop].
  eapply post_bind; [apply (peek_post _ _ _ _ _ St), more_nodes_nil, EK|].
  intros x s' y t' ([Ty Tm] & Es & Sn). cbv beta iota. rewrite Ty. clear Ty Tm y.
  assert (Stop : ty x = SOp Semicolon \/ ty x = SOp Pipe -> exists new xs ys, rule = rule ++ new /\
    (map fst rule, @None (delimiter * list ttree)) = (map fst (rule ++ new), None) /\ nodes_at new xs /\
    matches (maybe a_block) (types_at ys) /\ state all (pre ++ xs ++ ys) s t K).
  { intro X. exists [], [], []. rewrite !app_nil_r. do 2 (split; [reflexivity|]). split; [constructor|]. split; [apply m_left; constructor|].
    eapply state_narrow; [exact St| | | |exact LK].
    - intros ys Ky. unfold more_nodes. apply cat_star. left. apply cat_alt. left. now apply cat_empty.
    - intros x' r ys E D. rewrite Es in E. injection E as <- <-. apply more_nodes_head in D; auto. destruct X as [X|X]; rewrite X in *; exact D.
    - intro E. rewrite E in Es. discriminate. }
  assert (Go : match ty x with SOp Semicolon | SOp Pipe | SGroup _ _ => False | _ => True end ->
    post all (bind (sp_production_node_parse span call_site join_spans print s) (fun '(node, s) =>
        sp_rule_loop span call_site join_spans print fuel (merge m (snd node)) (rule ++ [node]) s))
      (bind (production_node_parse print t) (fun '(node, s) => rule_loop print fuel (map fst rule ++ [node]) s))
      (fun r s' r' t' => exists new xs ys, snd (fst r) = rule ++ new /\ r' = (map fst (rule ++ new), option_map (block_tree span) (snd r)) /\ nodes_at new xs /\
       matches (maybe a_block) (types_at ys) /\ state all (pre ++ xs ++ ys) s' t' K)).
  { intro X.
    assert (St' : state all pre s t (cat a_node (more_nodes K))).
    { eapply state_narrow; [exact St| | | |apply live_cat; [exact inh_node|exact LM]].
      - intros ys H. unfold more_nodes. apply cat_star. now right.
      - intros x' r ys E D. rewrite Es in E. injection E as <- <-. apply more_nodes_head in D; auto.
        destruct (ty x) as [[]|n|l|d ts|ts|ts]; try contradiction; exact D.
      - intro E. rewrite E in Es. discriminate. }
    eapply post_bind; [apply (node_post _ _ _ _ _ (more_nodes_first K EK) LM St')|].
    intros nd s2 n2 t2 (xs & -> & Seg & St2). cbv beta iota.
    replace (map fst rule ++ [fst nd]) with (map fst (rule ++ [nd])) by now rewrite map_app.
    eapply post_weaken; [apply (IH _ _ _ _ _ St2)|].
    intros r s3 r' t3 (new & xs' & ys & E1 & E2 & Na & Mb & St3). exists (nd :: new), (xs ++ xs'), ys.
    rewrite <- app_assoc in E1, E2. split; [exact E1|]. split; [exact E2|]. split; [now constructor|]. split; [exact Mb|].
    now rewrite <- !app_assoc in *. }
  destruct (ty x) as [[]|n|l|d ts|ts|ts] eqn:Tx; try (apply Go; exact I).
  - apply Stop. now left.
  - apply Stop. now right.
  - simpl. exists [], [], [x]. rewrite app_nil_r. split; [reflexivity|]. rewrite <- (inside_ok _ _ _ Tx). split; [reflexivity|]. split; [constructor|].
    split; [apply m_right; simpl; rewrite Tx; constructor; eauto|].
    eapply seen_step; [exact Sn| |exact LK]. intro ys. rewrite Tx. now rewrite more_nodes_head.
Qed.

Lemma nodes_match nds xs : nodes_at nds xs -> matches (RStar a_node) (types_at xs).
Proof.
  induction 1 as [|nd xs nds ys [M _] N IH]; [constructor|]. rewrite types_app. now constructor.
Qed.

Lemma node_ne nd xs : node_seg nd xs -> xs <> [].
Proof.
  intros [M _] ->. apply (node_not_nil just_nil). exists [], []. repeat split; auto.
Qed.

Lemma nodes_epsilon nds xs nd : nodes_at nds xs -> find (fun nd => pnode_is_epsilon (fst nd)) nds = Some nd -> 1 < List.length nds ->
  exists n1 x n2, xs = n1 ++ x :: n2 /\ ty x = SOp Bang /\ snd nd = at_meta span x /\ matches (RStar a_node) (types_at n1) /\
  matches (RStar a_node) (types_at n2) /\ n1 ++ n2 <> [] /\ ~ In (SOp Bang) (types_at n1).
Proof.
  intros N F L.
  assert (G : exists n1 x n2, xs = n1 ++ x :: n2 /\ ty x = SOp Bang /\ snd nd = at_meta span x /\ matches (RStar a_node) (types_at n1) /\
    matches (RStar a_node) (types_at n2) /\ (1 < List.length nds -> n1 ++ n2 <> []) /\ ~ In (SOp Bang) (types_at n1)).
  { clear L. induction N as [|nd' xs nds ys Seg N IH]; [discriminate|]. simpl in F. pose proof Seg as [M E].
    destruct (pnode_is_epsilon (fst nd')) eqn:P.
    - injection F as <-. destruct E as (x & -> & Tx & Mx). exists [], x, ys. split; [reflexivity|]. split; [exact Tx|]. split; [exact Mx|].
      split; [constructor|]. split; [now apply nodes_match in N|]. split; [|now intros []].
      intro L. destruct N as [|nd2 xs2 nds2 ys2 Seg2 N2]; [simpl in L; lia|]. simpl. apply node_ne in Seg2. destruct xs2; [contradiction|discriminate].
    - destruct (IH F) as (n1 & x & n2 & -> & Tx & Mx & M1 & M2 & _ & NB). exists (xs ++ n1), x, n2.
      split; [now rewrite <- app_assoc|]. split; [exact Tx|]. split; [exact Mx|]. split; [rewrite types_app; now constructor|]. split; [exact M2|].
      split; [|rewrite types_app; intro H; apply in_app_or in H as [H|H]; [now apply E in H|now apply NB in H]].
      intros _ H. apply app_eq_nil in H as [H _]. apply app_eq_nil in H as [H _]. now apply (node_ne nd' xs) in H. }
  destruct G as (n1 & x & n2 & H1 & H2 & H3 & H4 & H5 & H6 & H7). exists n1, x, n2. auto 10.
Qed.

Lemma find_existsb {A} (f : A -> bool) l : existsb f l = match find f l with Some _ => true | None => false end.
Proof. induction l as [|a l IH]; simpl; auto. now destruct (f a). Qed.

Lemma existsb_map {A B} (f : B -> bool) (g : A -> B) l : existsb f (map g l) = existsb (fun a => f (g a)) l.
Proof. induction l as [|a l IH]; simpl; congruence. Qed.

Lemma parse_rule_post all K pre b s t name rt : ends_alternative K -> live K -> ty b = SOp Arrow \/ ty b = SOp Pipe ->
  state all (pre ++ [b]) s t (cat an_alternative K) ->
  post all (sp_parse_rule span call_site join_spans print s name rt)
    (parse_rule print t name (option_map (mt_tokens span) rt))
    (fun r s' r' t' => exists xs, r' = ra_rule span r /\ matches an_alternative (types_at xs) /\ state all ((pre ++ [b]) ++ xs) s' t' K).
Proof.
  intros EK LK Tb St. unfold sp_parse_rule, parse_rule. unfold an_alternative in St. rewrite !cat_seq in St. fold (more_nodes K) in St.
  assert (LM : live (more_nodes K)) by (apply live_cat; [exact I|]; apply live_cat; [now left|exact LK]).
  eapply post_bind; [apply (node_post _ _ _ _ _ (more_nodes_first K EK) LM St)|].
  intros nd s1 n1 t1 (xs1 & -> & Seg & St1). cbv beta iota.
  rewrite <- (Forall2_len _ _ _ (st_same _ _ _ _ _ St1)).
  eapply post_bind; [exact (rule_loop_post all K EK LK _ (snd nd) [nd] _ _ _ St1)|].
  intros [[mt rule] block] s2 [rule' block'] t2 (new & xs & ys & E1 & E2 & Na & Mb & St2). simpl in E1, E2. subst rule.
  injection E2 as -> ->. cbv beta iota.
  assert (Nb : nodes_at (nd :: new) (xs1 ++ xs)) by now constructor.
  change (fst nd :: map fst new) with (map fst (nd :: new)). rewrite map_length, existsb_map, find_existsb.
  assert (Good : exists ys0, mk_prule name (option_map (mt_tokens span) rt) (map fst (nd :: new)) (option_map (block_tree span) block) =
      ra_rule span (mk_rule_at span name (option_map (mt_tokens span) rt) (nd :: new) block mt) /\
      matches an_alternative (types_at ys0) /\ state all ((pre ++ [b]) ++ ys0) s2 t2 K).
  { exists (xs1 ++ xs ++ ys). split; [reflexivity|]. split; [|now rewrite <- !app_assoc in *].
    rewrite !types_app. constructor; [exact (proj1 Seg)|]. constructor; [eapply nodes_match; eauto|exact Mb]. }
  change ([nd] ++ new) with (nd :: new).
  destruct (find (fun node => pnode_is_epsilon (fst node)) (nd :: new)) as [eps|] eqn:Fd.
  - rewrite andb_true_r. change (@List.length (pnode * meta span) (nd :: new)) with (@List.length (node_at span) (nd :: new)).
    destruct (1 <? List.length (nd :: new))%nat eqn:Ln; [|exact Good].
    apply Nat.ltb_lt in Ln. destruct (nodes_epsilon _ _ _ Nb Fd Ln) as (m1 & x & m2 & Ex & Tx & Mx & M1 & M2 & Ne & NB).
    cbn [post make_err]. unfold make_err. rewrite Mx. rewrite (st_all _ _ _ _ _ St2).
    replace (map inl (((pre ++ [b]) ++ xs1) ++ xs ++ ys) ++ ss_iter span s2)
      with (map (@inl _ diag) (pre ++ b :: m1 ++ x :: m2) ++ (map inl ys ++ ss_iter span s2)).
    + apply l_epsilon; auto; [|constructor].
      pose proof (state_starts _ _ _ _ _ St2) as Sts. replace (((pre ++ [b]) ++ xs1) ++ xs ++ ys) with ((pre ++ b :: m1 ++ x :: m2) ++ ys) in Sts.
      * rewrite types_app in Sts. now apply starts_prefix in Sts.
      * rewrite <- Ex, <- !app_assoc. cbn [app]. now rewrite <- !app_assoc.
    + rewrite <- Ex, app_assoc, <- map_app, <- !app_assoc. cbn [app]. now rewrite <- !app_assoc.
  - rewrite andb_false_r. exact Good.
Qed.

Definition more_alternatives (K : lang) : lang := cat (RStar (RSeq (op Pipe) an_alternative)) (cat (op Semicolon) K).

Lemma more_alternatives_head K u ys : more_alternatives K (u :: ys) <->
  (u = SOp Pipe /\ cat an_alternative (more_alternatives K) ys) \/ (u = SOp Semicolon /\ K ys).
Proof.
  unfold more_alternatives at 1. rewrite cat_star. fold (more_alternatives K). rewrite (cat_seq _ _ _ (u :: ys)). unfold op.
  rewrite !cat_sym. split.
  - intros [[<- H]|[<- H]]; auto.
  - intros [[-> H]|[-> H]]; auto.
Qed.

Lemma more_alternatives_nil K : ~ more_alternatives K [].
Proof.
  unfold more_alternatives. rewrite cat_star. unfold op. intros [H|H]; [now apply cat_sym_nil in H|].
  apply (proj1 (cat_seq _ _ _ _)) in H. now apply cat_sym_nil in H.
Qed.

Lemma more_alternatives_ends K : ends_alternative (more_alternatives K).
Proof.
  intros [|u ys] H; [now apply more_alternatives_nil in H|]. exists u, ys. split; [reflexivity|].
  apply more_alternatives_head in H as [[-> _]|[-> _]]; auto.
Qed.

Lemma more_alternatives_live K : live K -> live (more_alternatives K).
Proof. intro L. apply live_cat; [exact I|]. apply live_cat; [simpl; eauto|exact L]. Qed.

Lemma alternatives_post all K name rt : live K -> forall fuel rules s t pre, state all pre s t (more_alternatives K) ->
  post all (sp_alternatives span call_site join_spans print fuel name rt rules s)
    (alternatives print fuel name (option_map (mt_tokens span) rt) (map (ra_rule span) rules) t)
    (fun rs s' rs' t' => exists xs z, rs' = map (ra_rule span) rs /\
       matches (RStar (RSeq (op Pipe) an_alternative)) (types_at xs) /\ ty z = SOp Semicolon /\ state all (pre ++ xs ++ [z]) s' t' K).
Proof.
  intros LK fuel. induction fuel as [|fuel IH]; intros rules s t pre St; [exact I|].
  cbn [sp_alternatives alternatives].
  eapply post_bind; [apply (expect_post _ _ _ _ _ St), more_alternatives_nil|].
  intros x s' y t' [[Ty Tm] Sn]. cbv beta iota. rewrite Ty. clear Ty Tm y.
  assert (Bad : ty x <> SOp Pipe -> ty x <> SOp Semicolon ->
    located all ExpectedSemicolonOrPipe (mk_diag span (error_text ExpectedSemicolonOrPipe) (span_of x))).
  { intros N1 N2. eapply seen_bad; [exact Sn| | |].
    - intros ys H. apply more_alternatives_head in H as [[H _]|[H _]]; contradiction.
    - right. eexists. constructor.
    - intros u A. destruct LK as [ks LK]. pose proof (live_cat _ _ inh_alternative (more_alternatives_live K (ex_intro _ ks LK))) as [ys Hy].
      inversion A; subst; eexists; apply more_alternatives_head; eauto. }
  destruct (ty x) as [[]|n|l|d ts|ts|ts] eqn:Tx; try (apply Bad; discriminate); clear Bad.
  - simpl. exists [], x. split; [reflexivity|]. split; [constructor|]. split; [exact Tx|].
    eapply seen_step; [exact Sn| |exact LK]. intro ys. rewrite more_alternatives_head, Tx.
    split; [intros [[H _]|[_ H]]; [discriminate|exact H]|auto].
  - assert (St' : state all (pre ++ [x]) s' t' (cat an_alternative (more_alternatives K))).
    { eapply seen_step; [exact Sn| |apply live_cat; [exact inh_alternative|now apply more_alternatives_live]].
      intro ys. rewrite more_alternatives_head, Tx. split; [intros [[_ H]|[H _]]; [exact H|discriminate]|auto]. }
    eapply post_bind; [apply (parse_rule_post _ _ _ _ _ _ name rt (more_alternatives_ends K) (more_alternatives_live K LK) (or_intror Tx) St')|].
    intros r s2 r' t2 (xs & -> & Ma & St2). cbv beta iota.
    replace (map (ra_rule span) rules ++ [ra_rule span r]) with (map (ra_rule span) (rules ++ [r])) by now rewrite map_app.
    eapply post_weaken; [apply (IH _ _ _ _ St2)|].
    intros rs s3 rs' t3 (ys & z & -> & Ms & Tz & St3). exists (x :: xs ++ ys), z. split; [reflexivity|]. split; [|split; [exact Tz|]].
    + change (types_at (x :: xs ++ ys)) with ([ty x] ++ types_at (xs ++ ys)). rewrite types_app, app_assoc.
      constructor; [|exact Ms]. constructor; [now constructor|exact Ma].
    + rewrite <- !app_assoc in St3. cbn [app] in *. now rewrite <- app_assoc.
Qed.

(** ** Declarations *)

Definition view (m : meta span) : span * list ttree := (mt_span span m, mt_tokens span m).

Lemma merged_view xs : forall m, view (merged m xs) =
  (fold_left (cover join_spans) (map span_of xs) (mt_span span m), mt_tokens span m ++ flat_map tokens_of xs).
Proof.
  induction xs as [|x xs IH]; intro m; [simpl; now rewrite app_nil_r|].
  change (merged m (x :: xs)) with (merged (merge m (at_meta span x)) xs). rewrite IH. simpl. now rewrite <- app_assoc.
Qed.

Lemma merged_type x xs : view (merged (at_meta span x) xs) = (cover_all join_spans x xs, flat_map tokens_of (x :: xs)).
Proof. apply merged_view. Qed.

Definition erase_types (m : sp_label_type_map span) : label_type_map :=
  map (fun '(l, rt) => (l, option_map (mt_tokens span) rt)) m.

Lemma erase_get l m : hm_get l (erase_types m) = option_map (option_map (mt_tokens span)) (hm_get l m).
Proof. induction m as [|[k v] m IH]; simpl; auto. now destruct (eq_dec l k). Qed.

Lemma tokens_view (rt : option (meta span)) : option_map snd (option_map view rt) = option_map (mt_tokens span) rt.
Proof. now destruct rt. Qed.

Lemma return_type_post all K pre s t : live K ->
  state all pre s t (cat (maybe (RSeq (op Colon) a_type)) (cat (op Arrow) K)) ->
  post all (sp_maybe_parse_return_type span call_site join_spans s) (maybe_parse_return_type t)
    (fun rt s' rt' t' => exists xs, rt' = option_map (mt_tokens span) rt /\ type_at join_spans (option_map view rt) xs /\
       type_ends (option_map view rt) (ss_iter span s') /\ state all (pre ++ xs) s' t' (cat (op Arrow) K)).
Proof.
  intros LK St. unfold sp_maybe_parse_return_type, maybe_parse_return_type.
  assert (LA : live (cat (op Arrow) K)) by (apply live_cat; [simpl; eauto|exact LK]).
  assert (EA : ends_types (cat (op Arrow) K)).
  { intros [|u us] H; [now apply cat_sym_nil in H|]. apply cat_sym in H as [<- _]. eauto. }
  assert (N : ~ cat (maybe (RSeq (op Colon) a_type)) (cat (op Arrow) K) []).
  { unfold maybe. rewrite cat_alt. intros [H|H].
    - apply (proj1 (cat_empty _ _)) in H. now apply cat_sym_nil in H.
    - apply (proj1 (cat_seq _ _ _ _)) in H. now apply cat_sym_nil in H. }
  eapply post_bind; [apply (peek_post _ _ _ _ _ St N)|].
  intros x s' y t' ([Ty Tm] & Es & Sn). cbv beta iota. rewrite Ty. clear Ty Tm y.
  assert (None_ : ty x <> SOp Colon -> exists xs, None = option_map (mt_tokens span) None /\ type_at join_spans (option_map view None) xs /\
       type_ends (option_map view None) (ss_iter span s) /\ state all (pre ++ xs) s t (cat (op Arrow) K)).
  { intro NC. exists []. rewrite app_nil_r. split; [reflexivity|]. split; [constructor|]. split; [now intros []|].
    eapply state_narrow; [exact St| | | |exact LA].
    - intros ys H. apply cat_alt. left. now apply cat_empty.
    - intros x' r ys E D. rewrite Es in E. injection E as <- <-. apply cat_alt in D as [D|D]; [now apply (proj1 (cat_empty _ _)) in D|].
      apply (proj1 (cat_seq _ _ _ _)) in D. apply cat_sym in D as [D _]. now elim NC.
    - intro E. rewrite E in Es. discriminate. }
  destruct (ty x) as [[]|n|l|d ts|ts|ts] eqn:Tx; try (apply None_; discriminate). clear None_.
  assert (St' : state all (pre ++ [x]) s' t' (cat a_type (cat (op Arrow) K))).
  { eapply seen_step; [exact Sn| |apply live_cat; [exact inh_type|exact LA]].
    intro ys. unfold maybe. rewrite Tx, cat_alt. rewrite (cat_empty _ (SOp Colon :: ys)), (cat_seq _ _ _ (SOp Colon :: ys)).
    unfold op. rewrite !cat_sym. split; [intros [[H _]|[_ H]]; [discriminate|exact H]|auto]. }
  eapply post_bind; [apply (type_post _ _ _ _ _ EA LA St')|].
  intros m s2 n t2 (z & zs & F & -> & -> & St2 & Sp). simpl. exists (x :: z :: zs).
  split. { f_equal. pose proof (merged_type z zs) as E. unfold view in E. now injection E as _ ->. }
  rewrite merged_type. split; [now constructor|]. split; [|now rewrite <- app_assoc in St2].
  intros _. exact Sp.
Qed.

Lemma return_type_matches rt (xs : list symbol_at) : type_at join_spans rt xs -> matches (maybe (RSeq (op Colon) a_type)) (types_at xs).
Proof.
  intro T. destruct T as [|c x xs Tc F]; [apply m_left; constructor|]. apply m_right.
  change (types_at (c :: x :: xs)) with ([ty c] ++ types_at (x :: xs)). constructor; [now constructor|now apply type_matches].
Qed.

Definition known (xs : list symbol_at) (m : sp_label_type_map span) : Prop :=
  forall l rt, hm_get l m = Some rt -> declared_at join_spans xs l (option_map view rt).

Lemma declared_more xs ys l rt : declared_at join_spans xs l rt -> declared_at join_spans (xs ++ ys) l rt.
Proof.
  intros (a & xl & xt & xd & r & -> & H). exists a, xl, xt, xd, (r ++ ys). rewrite <- !app_assoc. auto.
Qed.

Lemma add_post all pre xl xt s t K m name rt : state all (pre ++ xl ++ xt) s t K -> known pre m -> ref_syms name xl ->
  type_at join_spans (option_map view rt) xt -> type_ends (option_map view rt) (ss_iter span s) ->
  match sp_label_types_add span print m name rt, label_types_add print (erase_types m) name (option_map (mt_tokens span) rt) with
  | Ok m', Ok m0 => m0 = erase_types m' /\
      (forall l rt', hm_get l m' = Some rt' -> hm_get l m = Some rt' \/ (l = name /\ rt' = rt))
  | Err d, Err e => located all e d
  | _, _ => False
  end.
Proof.
  intros St Kn R T Te. unfold sp_label_types_add, label_types_add. rewrite erase_get.
  destruct (hm_get name m) as [old|] eqn:G; simpl.
  - destruct (types_equal print (option_map (mt_tokens span) old) (option_map (mt_tokens span) rt)) eqn:Te'; simpl; [auto|].
    assert (Df : ~ same_type print (option_map (mt_tokens span) old) (option_map (mt_tokens span) rt)).
    { rewrite <- types_equal_ok. congruence. }
    apply Kn in G.
    assert (Loc : forall m1, match rt with Some _ => rt | None => old end = Some m1 ->
      located all DifferentReturnTypes (mk_diag span (error_text DifferentReturnTypes) (mt_span span m1))).
    { intros m1 E. rewrite (st_all _ _ _ _ _ St).
      eapply l_types with (label := name) (ty := option_map view rt) (old := option_map view old) (ts := mt_tokens span m1); eauto.
      - eapply state_starts; eauto.
      - now rewrite !tokens_view.
      - destruct rt as [m2|], old as [m3|]; simpl in *; try discriminate E; injection E as ->; reflexivity.
      - constructor. }
    destruct rt as [m2|], old as [m3|]; simpl; try (apply Loc; reflexivity). now elim Df.
  - split; [unfold hm_insert_vacant, erase_types; now rewrite map_app|].
    intros l rt' H. unfold hm_insert_vacant in H. clear - H. induction m as [|[k v] m IH]; simpl in *.
    + destruct (eq_dec l name); [|discriminate]. injection H as <-. auto.
    + destruct (eq_dec l k); auto.
Qed.

Definition after_arrow (K : lang) : lang := cat an_alternative (more_alternatives K).

Lemma after_arrow_live K : live K -> live (after_arrow K).
Proof. intro L. apply live_cat; [exact inh_alternative|now apply more_alternatives_live]. Qed.

Lemma cat_declaration K : lang_eq (cat a_declaration K)
  (cat a_ref (cat (maybe (RSeq (op Colon) a_type)) (cat (op Arrow) (after_arrow K)))).
Proof.
  unfold a_declaration. cbn [seq_of fold_right]. rewrite !cat_seq, cat_empty. unfold alternatives_rx. rewrite cat_seq. reflexivity.
Qed.

Lemma declaration_post all K pre s t m : live K -> known pre m -> state all pre s t (cat a_declaration K) ->
  post all (sp_production_rule_parse span call_site join_spans print s m) (production_rule_parse print t (erase_types m))
    (fun rm s' rm' t' => exists xs, rm' = (map (ra_rule span) (fst rm), erase_types (snd rm)) /\
       known (pre ++ xs) (snd rm) /\ state all (pre ++ xs) s' t' K).
Proof.
  intros LK Kn St. unfold sp_production_rule_parse, production_rule_parse. rewrite cat_declaration in St.
  pose proof (after_arrow_live K LK) as L1.
  assert (L2 : live (cat (op Arrow) (after_arrow K))) by (apply live_cat; [simpl; eauto|exact L1]).
  eapply post_bind; [apply (fun L => ref_post _ _ _ _ _ L St); apply live_cat; [now left|exact L2]|].
  intros [name nm] s1 name' t1 (xl & -> & R & St1). cbv beta iota. simpl fst in *.
  eapply post_bind; [apply (return_type_post _ _ _ _ _ L1 St1)|].
  intros rt s2 rt' t2 (xt & -> & T & Te & St2). cbv beta iota. rewrite <- app_assoc in St2.
  pose proof (add_post _ _ _ _ _ _ _ _ _ _ St2 Kn R T Te) as Ad.
  destruct (sp_label_types_add span print m name rt) as [m'|d| |], (label_types_add print (erase_types m) name (option_map (mt_tokens span) rt)) as [m0|e| |];
    try contradiction; cbn [bind]; [|exact Ad].
  destruct Ad as [-> Ad].
  eapply post_bind.
  { apply (with_post _ _ _ _ _ _ _ ExpectedArrow St2 L1).
    - intro u. rewrite is_op_ok. split; congruence.
    - eexists; constructor.
    - intros u A. now inversion A. }
  intros ma s3 na t3 (xa & -> & -> & Ta & St3). cbv beta iota.
  eapply post_bind; [apply (parse_rule_post _ _ _ _ _ _ name rt (more_alternatives_ends K) (more_alternatives_live K LK) (or_introl (eq_sym Ta)) St3)|].
  intros r s4 r' t4 (xr & -> & Mr & St4). cbv beta iota.
  rewrite <- (Forall2_len _ _ _ (st_same _ _ _ _ _ St4)).
  eapply post_bind; [exact (alternatives_post all K name rt LK _ [r] _ _ _ St4)|].
  intros rs s5 rs' t5 (xs & z & -> & Ms & Tz & St5). simpl.
  assert (Md : matches a_declaration (types_at (xl ++ xt ++ xa :: xr ++ xs ++ [z]))).
  { rewrite !types_app. change (types_at (xa :: xr ++ xs ++ [z])) with ([ty xa] ++ types_at (xr ++ xs ++ [z])). rewrite !types_app.
    unfold a_declaration. cbn [seq_of fold_right]. constructor; [now apply (ref_matches name)|].
    constructor; [now apply (return_type_matches (option_map view rt))|]. constructor; [now constructor|].
    rewrite app_assoc. constructor; [now constructor|]. change (types_at [z]) with ([ty z] ++ []). constructor; [now constructor|constructor]. }
  exists (xl ++ xt ++ xa :: xr ++ xs ++ [z]). split; [reflexivity|]. split.
  - intros l rt' H. apply Ad in H as [H|[-> ->]]; [apply declared_more; now apply Kn|].
    exists pre, xl, xt, (xa :: xr ++ xs ++ [z]), []. rewrite app_nil_r. auto.
  - repeat rewrite <- app_assoc in St5. cbn [app] in St5. exact St5.
Qed.

Definition more_declarations : lang := cat (RStar a_declaration) just_nil.

Lemma more_declarations_live : live more_declarations.
Proof. apply live_cat; [exact I|]. now exists []. Qed.

Definition result {A B} (all : items) (m : outcome diag A) (n : outcome front_error B) (Q : A -> B -> Prop) : Prop :=
  match m, n with
  | Ok a, Ok b => Q a b
  | Err d, Err e => located all e d
  | Panic w, Panic w' => w = w'
  | Diverge, Diverge => True
  | _, _ => False
  end.

Lemma result_bind {A B A' B'} all m n (k : A * sp_stream -> outcome diag A') (l : B * stream -> outcome front_error B') Q R :
  post all m n Q -> (forall a s b t, Q a s b t -> result all (k (a, s)) (l (b, t)) R) -> result all (bind m k) (bind n l) R.
Proof. destruct m as [[a s]| | |], n as [[b t]| | |]; simpl; auto; contradiction. Qed.

Lemma result_bind2 {A B A' B'} all m n (k : A -> outcome diag A') (l : B -> outcome front_error B') Q R :
  result all m n Q -> (forall a b, Q a b -> result all (k a) (l b) R) -> result all (bind m k) (bind n l) R.
Proof. destruct m, n; simpl; auto; contradiction. Qed.

(** Before a declaration: there is one if no [error_type] has been read. *)
Definition at_declarations all pre s t : Prop :=
  state all pre s t more_declarations \/ (state all pre s t (cat a_declaration more_declarations) /\ ss_iter span s <> []).

Lemma rules_loop_post all : forall fuel m rules s t pre, known pre m -> at_declarations all pre s t ->
  result all (sp_rules_loop span call_site join_spans print fuel m rules s)
    (rules_loop print fuel (erase_types m) (map (ra_rule span) rules) t)
    (fun r r' => r' = (erase_types (fst r), map (ra_rule span) (snd r)) /\
       exists xs, all = map inl xs /\ matches a_file (types_at xs)).
Proof.
  induction fuel as [|fuel IH]; intros m rules s t pre Kn St; [exact I|]. cbn [sp_rules_loop rules_loop].
  assert (Sm : Forall2 same_item (ss_iter span s) t) by (destruct St as [St|[St _]]; exact (st_same _ _ _ _ _ St)).
  destruct (ss_iter span s) as [|i r] eqn:E; inversion Sm as [|? j ? t' Si Sr]; subst.
  { split; [reflexivity|]. destruct St as [St|[_ N]]; [|now elim N]. exists pre. split.
    - now rewrite (st_all _ _ _ _ _ St), E, app_nil_r.
    - rewrite <- (app_nil_r (types_at pre)). apply (st_sound _ _ _ _ _ St). apply cat_star. now left. }
  assert (St' : state all pre s (j :: t') (cat a_declaration more_declarations)).
  { destruct St as [St|[St _]]; [|exact St]. eapply state_narrow; [exact St| | | |].
    - intros ys H. apply cat_star. now right.
    - intros x q ys _ H. apply cat_star in H as [H|H]; [discriminate|exact H].
    - intro N. rewrite N in E. discriminate.
    - apply live_cat; [exact inh_declaration|exact more_declarations_live]. }
  eapply result_bind; [apply (declaration_post _ _ _ _ _ _ more_declarations_live Kn St')|].
  intros [rs m'] s1 rm' t1 (xs & -> & Kn1 & St1). cbv beta iota. simpl fst in *. simpl snd in *.
  rewrite <- map_app. exact (IH _ _ _ _ _ Kn1 (or_introl St1)).
Qed.

(** ** Options *)

Lemma append_assoc (a b c : string) : ((a ++ b) ++ c = a ++ (b ++ c))%string.
Proof. induction a as [|x a IH]; [reflexivity|]. cbn [append]. now rewrite IH. Qed.

Lemma colon_text n : ("Expected "":"" to follow " ++ quoted n ++ " keyword.")%string = error_text (ExpectedColon n).
Proof. unfold quoted. cbn [append error_text]. now rewrite append_assoc. Qed.
Lemma semicolon_text n : ("Expected "";"" to follow " ++ quoted n ++ " value.")%string = error_text (ExpectedSemicolon n).
Proof. unfold quoted. cbn [append error_text]. now rewrite append_assoc. Qed.
Lemma keyword_text n : ("Expected " ++ quoted n ++ " keyword")%string = error_text (ExpectedKeyword n).
Proof. unfold quoted. cbn [append error_text]. now rewrite append_assoc. Qed.

Lemma remainder_post {A B} all K pre s t n v (p : sp_stream -> outcome diag (A * sp_stream)) (p' : stream -> outcome front_error (B * stream))
  (R : A -> B -> Prop) : live K -> inhabited v ->
  (forall pre s t, state all pre s t (cat v (cat (op Semicolon) K)) ->
     post all (p s) (p' t) (fun a s' b t' => R a b /\ exists xs, state all (pre ++ xs) s' t' (cat (op Semicolon) K))) ->
  state all pre s t (cat (op Colon) (cat v (cat (op Semicolon) K))) ->
  post all (sp_parse_option_remainder span call_site s n p) (parse_option_remainder t n p')
    (fun a s' b t' => R a b /\ exists xs, state all (pre ++ xs) s' t' K).
Proof.
  intros LK Iv Hp St. unfold sp_parse_option_remainder, parse_option_remainder. rewrite colon_text, semicolon_text.
  assert (L1 : live (cat (op Semicolon) K)) by (apply live_cat; [simpl; eauto|exact LK]).
  eapply post_bind.
  { apply (with_post _ _ _ _ _ _ _ (ExpectedColon n) St (live_cat _ _ Iv L1)).
    - intro u. rewrite is_op_ok. split; congruence.
    - eexists; constructor.
    - intros u A0. now inversion A0. }
  intros m1 s1 n1 t1 (x1 & -> & -> & T1 & St1). cbv beta iota.
  eapply post_bind; [apply (Hp _ _ _ St1)|].
  intros a s2 b t2 (Rab & xs & St2). cbv beta iota.
  eapply post_bind.
  { apply (with_post _ _ _ _ _ _ _ (ExpectedSemicolon n) St2 LK).
    - intro u. rewrite is_op_ok. split; congruence.
    - eexists; constructor.
    - intros u A0. now inversion A0. }
  intros m3 s3 n3 t3 (x3 & -> & -> & T3 & St3). simpl. split; [exact Rab|]. exists (x1 :: xs ++ [x3]).
  repeat rewrite <- app_assoc in St3. exact St3.
Qed.

Lemma cat_option n v K : lang_eq (cat (an_option n v) K) (cat (keyword n) (cat (op Colon) (cat v (cat (op Semicolon) K)))).
Proof. unfold an_option. cbn [seq_of fold_right]. rewrite !cat_seq, cat_empty. reflexivity. Qed.

Lemma option_tail_live v K : inhabited v -> live K -> live (cat (op Colon) (cat v (cat (op Semicolon) K))).
Proof. intros Iv L. apply live_cat; [simpl; eauto|]. apply live_cat; [exact Iv|]. apply live_cat; [simpl; eauto|exact L]. Qed.

Lemma name_post all K pre s t : live K -> state all pre s t (cat (an_option "name" an_ident) K) ->
  post all (sp_parse_name span call_site s) (parse_name t)
    (fun a s' b t' => a = b /\ exists xs, state all (pre ++ xs) s' t' K).
Proof.
  intros LK St. unfold sp_parse_name, parse_name. apply post_intercept. unfold sp_parse_option, parse_option. rewrite keyword_text.
  rewrite cat_option in St.
  assert (Ii : inhabited an_ident) by (exists (SIdent ""), ""; reflexivity).
  eapply post_bind.
  { apply (with_post _ _ _ _ _ _ _ (ExpectedKeyword "name") St (option_tail_live _ _ Ii LK)).
    - intro u. rewrite is_name_ok. split; congruence.
    - eexists; constructor.
    - intros u A0. now inversion A0. }
  intros m1 s1 n1 t1 (x1 & -> & -> & T1 & St1). cbv beta iota.
  eapply post_weaken; [apply (remainder_post all K (pre ++ [x1]) s1 t1 "name" an_ident (sp_ident_parse span call_site) ident_parse (fun a b => a = b) LK Ii); [|exact St1]|].
  - intros pre' s' t' St'. eapply post_weaken; [apply (fun L => ident_post _ _ _ _ _ L St'); apply live_cat; [simpl; eauto|exact LK]|].
    intros a s2 b t2 (x & -> & _ & St2). split; [reflexivity|]. eauto.
  - intros a s2 b t2 (E & xs & St2). split; [exact E|]. exists (x1 :: xs). now rewrite <- app_assoc in St2.
Qed.

Lemma semicolon_ends K : ends_types (cat (op Semicolon) K).
Proof. intros [|u us] H; [now apply cat_sym_nil in H|]. apply cat_sym in H as [<- _]. eauto. Qed.

(** An option whose value is a type, after its keyword. *)
Lemma type_option_post {A} all K pre s t n (f : list ttree -> A) : live K ->
  state all pre s t (cat (op Colon) (cat a_type (cat (op Semicolon) K))) ->
  post all
    (sp_parse_option_remainder span call_site s n
       (fun s => '(ty, s) <- sp_type_parse span call_site join_spans s ;; Ok (f (mt_tokens span ty), s)))
    (parse_option_remainder t n (fun s => '(ty, s) <- type_parse s ;; Ok (f ty, s)))
    (fun a s' b t' => a = b /\ exists xs, state all (pre ++ xs) s' t' K).
Proof.
  intros LK St. assert (L1 : live (cat (op Semicolon) K)) by (apply live_cat; [simpl; eauto|exact LK]).
  apply (remainder_post all K pre s t n a_type _ _ (fun a b => a = b) LK inh_type); [|exact St].
  intros pre' s' t' St'. eapply post_bind; [apply (type_post _ _ _ _ _ (semicolon_ends K) L1 St')|].
  intros m s2 n2 t2 (x & xs & _ & -> & -> & St2 & _). simpl. split; [|eauto].
  pose proof (merged_type x xs) as E. unfold view in E. now injection E as _ ->.
Qed.

Definition a_terminal_type : rx := RAlt (an_option "terminal" a_type) (an_option "enum_terminal" a_type).

Lemma terminal_type_head K u ys : cat a_terminal_type K (u :: ys) <->
  (u = SIdent "terminal" \/ u = SIdent "enum_terminal") /\ cat (op Colon) (cat a_type (cat (op Semicolon) K)) ys.
Proof.
  unfold a_terminal_type. rewrite cat_alt. rewrite (cat_option "terminal" _ _ (u :: ys)), (cat_option "enum_terminal" _ _ (u :: ys)).
  unfold keyword. rewrite !cat_sym. split.
  - intros [[<- H]|[<- H]]; auto.
  - intros [[->| ->] H]; auto.
Qed.

Lemma terminal_type_not_nil K : ~ cat a_terminal_type K [].
Proof.
  unfold a_terminal_type. rewrite cat_alt. intros [H|H]; apply (proj1 (cat_option _ _ _ _)) in H; now apply cat_sym_nil in H.
Qed.

Lemma terminal_type_post all K pre s t : live K -> state all pre s t (cat a_terminal_type K) ->
  post all (sp_parse_terminal_symbol_type span call_site join_spans s) (parse_terminal_symbol_type t)
    (fun a s' b t' => a = b /\ exists xs, state all (pre ++ xs) s' t' K).
Proof.
  intros LK St. unfold sp_parse_terminal_symbol_type, parse_terminal_symbol_type.
  eapply post_bind; [apply post_intercept, (expect_post _ _ _ _ _ St), terminal_type_not_nil|].
  intros x s1 y t1 [[Ty Tm] Sn]. cbv beta iota. rewrite Ty. clear Ty Tm y.
  assert (Step : ty x = SIdent "terminal" \/ ty x = SIdent "enum_terminal" ->
    state all (pre ++ [x]) s1 t1 (cat (op Colon) (cat a_type (cat (op Semicolon) K)))).
  { intro X. eapply seen_step; [exact Sn| |now apply option_tail_live; [exact inh_type|]].
    intro ys. rewrite terminal_type_head. split; [now intros []|auto]. }
  assert (Go : forall A n (f : list ttree -> A), ty x = SIdent "terminal" \/ ty x = SIdent "enum_terminal" -> post all
    (sp_parse_option_remainder span call_site s1 n
       (fun s => '(ty, s) <- sp_type_parse span call_site join_spans s ;; Ok (f (mt_tokens span ty), s)))
    (parse_option_remainder t1 n (fun s => '(ty, s) <- type_parse s ;; Ok (f ty, s)))
    (fun a s' b t' => a = b /\ exists xs, state all (pre ++ xs) s' t' K)).
  { intros A n f X. eapply post_weaken; [apply (type_option_post all K _ _ _ n f LK (Step X))|].
    intros a s2 b t2 (E & xs & St2). split; [exact E|]. exists (x :: xs). now rewrite <- app_assoc in St2. }
  destruct (is_identifier_with_name (ty x) "terminal") eqn:C1.
  { apply is_name_ok in C1. apply post_intercept. apply (Go _ "terminal" TTRaw). auto. }
  destruct (is_identifier_with_name (ty x) "enum_terminal") eqn:C2.
  { apply is_name_ok in C2. apply post_intercept. apply (Go _ "enum_terminal" TTEnum). auto. }
  assert (N1 : ty x <> SIdent "terminal") by (intro E; apply is_name_ok in E; congruence).
  assert (N2 : ty x <> SIdent "enum_terminal") by (intro E; apply is_name_ok in E; congruence).
  refine (seen_bad _ _ _ _ _ _ ExpectedTerminalOption Sn _ _ _).
  - intros ys H. apply terminal_type_head in H as [[H|H] _]; contradiction.
  - right. eexists. constructor.
  - intros u A. destruct (option_tail_live _ _ inh_type LK) as [ys Hy]. exists ys. apply terminal_type_head. split; [|exact Hy].
    inversion A; auto.
Qed.

Definition the_rest : lang := cat (RAlt (RSeq (an_option "error_type" a_type) (RStar a_declaration)) (RSeq a_declaration (RStar a_declaration))) just_nil.

Lemma declaration_first K u ys : cat a_declaration K (u :: ys) -> u = SOp BeginProd.
Proof.
  intro H. apply (proj1 (cat_declaration _ _)) in H. unfold a_ref in H. cbn [seq_of fold_right] in H.
  apply (proj1 (cat_seq _ _ _ _)) in H. now apply cat_sym in H as [H _].
Qed.
Lemma declaration_not_nil K : ~ cat a_declaration K [].
Proof.
  intro H. apply (proj1 (cat_declaration _ _)) in H. unfold a_ref in H. cbn [seq_of fold_right] in H.
  apply (proj1 (cat_seq _ _ _ _)) in H. now apply cat_sym_nil in H.
Qed.

Lemma the_rest_ok ys : the_rest ys <->
  cat (keyword "error_type") (cat (op Colon) (cat a_type (cat (op Semicolon) more_declarations))) ys \/
  cat a_declaration more_declarations ys.
Proof.
  unfold the_rest. rewrite cat_alt. rewrite (cat_seq (an_option "error_type" a_type) _ _ ys), (cat_seq a_declaration _ _ ys).
  now rewrite (cat_option _ _ _ ys).
Qed.

Lemma error_type_post all pre s t : state all pre s t the_rest ->
  post all (sp_maybe_parse_error_type span call_site join_spans s) (maybe_parse_error_type t)
    (fun a s' b t' => a = b /\ exists xs, at_declarations all (pre ++ xs) s' t').
Proof.
  intros St. unfold sp_maybe_parse_error_type, maybe_parse_error_type.
  assert (N : ~ the_rest []).
  { rewrite the_rest_ok. intros [H|H]; [now apply cat_sym_nil in H|now apply declaration_not_nil in H]. }
  eapply post_bind; [apply post_intercept, (peek_post _ _ _ _ _ St N)|].
  intros x s1 y t1 ([Ty Tm] & Es & Sn). cbv beta iota. rewrite Ty. clear Ty Tm y.
  pose proof more_declarations_live as LM.
  destruct (is_identifier_with_name (ty x) "error_type") eqn:C; simpl negb; cbv iota.
  - apply is_name_ok in C. apply post_intercept.
    assert (St1 : state all (pre ++ [x]) s1 t1 (cat (op Colon) (cat a_type (cat (op Semicolon) more_declarations)))).
    { eapply seen_step; [exact Sn| |now apply option_tail_live; [exact inh_type|]].
      intro ys. rewrite the_rest_ok, C. unfold keyword. rewrite cat_sym. split; [|auto].
      intros [[_ H]|H]; [exact H|]. now apply declaration_first in H. }
    eapply post_weaken; [apply (type_option_post all _ _ _ _ "error_type" (@Some (list ttree)) LM St1)|].
    intros a s2 b t2 (E & xs & St2). split; [exact E|]. exists (x :: xs). left. now rewrite <- app_assoc in St2.
  - simpl. split; [reflexivity|]. exists []. rewrite app_nil_r. right. split; [|rewrite Es; discriminate].
    assert (NX : ty x <> SIdent "error_type") by (intro E; apply is_name_ok in E; congruence).
    eapply state_narrow; [exact St| | | |].
    + intros ys H. apply the_rest_ok. now right.
    + intros x' r ys E H. rewrite Es in E. injection E as <- <-. apply the_rest_ok in H as [H|H]; [|exact H].
      apply cat_sym in H as [H _]. now elim NX.
    + intro E. rewrite E in Es. discriminate.
    + apply live_cat; [exact inh_declaration|exact LM].
Qed.

(** ** Inputs *)

Lemma cat_file : lang_eq (cat a_file just_nil) (cat (an_option "name" an_ident) (cat a_terminal_type the_rest)).
Proof. unfold a_file. cbn [seq_of fold_right]. rewrite !cat_seq, cat_empty. reflexivity. Qed.

Definition erase_declarations (d : declarations_at span) : declarations :=
  mk_declarations (da_name span d) (da_terminal_type span d) (da_error_type span d)
    (erase_types (da_label_types span d)) (map (ra_rule span) (da_rules span d)).

Lemma the_rest_live : live the_rest.
Proof.
  destruct (live_cat _ _ inh_declaration more_declarations_live) as [ys H]. exists ys. apply the_rest_ok. now right.
Qed.

Theorem declarations_post its t : Forall2 same_item its t ->
  result its (sp_parse_declarations span call_site join_spans print (stream_new span its)) (parse_declarations print t)
    (fun d d' => d' = erase_declarations d /\ exists xs, its = map inl xs /\ matches a_file (types_at xs)).
Proof.
  intro F. unfold sp_parse_declarations, parse_declarations. pose proof the_rest_live as LR.
  assert (LT : live (cat a_terminal_type the_rest)).
  { apply live_cat; [left; apply inh_option, inh_type|exact LR]. }
  assert (St : state its [] (stream_new span its) t (cat a_file just_nil)).
  { constructor; auto.
    - discriminate.
    - intros ys (a & b & -> & M & E). unfold just_nil in E. subst b. now rewrite app_nil_r.
    - intros x r ys _ M. exists (ty x :: ys), []. rewrite app_nil_r. repeat split; auto.
    - intros _ M. exists [], []. repeat split; auto.
    - destruct LT as [ys H]. assert (Ii : inhabited an_ident) by (exists (SIdent ""), ""; reflexivity).
      destruct (live_cat _ _ (inh_option "name" an_ident Ii) (ex_intro _ ys H)) as [zs Hz].
      exists zs. now apply cat_file. }
  rewrite cat_file in St.
  eapply result_bind; [apply (name_post _ _ _ _ _ LT St)|].
  intros name s1 name' t1 (-> & xs1 & St1). cbv beta iota.
  eapply result_bind; [apply (terminal_type_post _ _ _ _ _ LR St1)|].
  intros tt s2 tt' t2 (-> & xs2 & St2). cbv beta iota.
  eapply result_bind; [apply (error_type_post _ _ _ _ St2)|].
  intros et s3 et' t3 (-> & xs3 & St3). cbv beta iota.
  assert (Ln : List.length (ss_iter span s3) = List.length t3).
  { destruct St3 as [St3|[St3 _]]; exact (Forall2_len _ _ _ (st_same _ _ _ _ _ St3)). }
  rewrite <- Ln.
  eapply result_bind2; [apply (rules_loop_post its _ [] [] _ _ _ (fun l rt H => ltac:(discriminate H)) St3)|].
  intros [m rs] r' (-> & xs & M). split; [reflexivity|]. eauto.
Qed.

(** ** Tokens *)

Definition same_builder (b : sp_punct_builder span) (b' : punct_builder) : Prop :=
  match b, b' with
  | SpEmpty _, PBEmpty => True
  | SpPrevWasEq _ m, PrevWasEq ts => mt_tokens span m = ts
  | SpPrevWasColon _ m, PrevWasColon ts => mt_tokens span m = ts
  | _, _ => False
  end.

Definition same_consumed (r : outcome diag (option symbol_at)) (r' : outcome front_error (option sym)) : Prop :=
  match r, r' with
  | Ok (Some x), Ok (Some y) => same_symbol x y
  | Ok None, Ok None => True
  | Err d, Err e => dg_message span d = error_text e
  | _, _ => False
  end.

Lemma identifier_text n : ("Identifier " ++ quoted n ++ " is not alphanumeric/_ with a non-numeric leading character")%string = error_text (BadIdentifier n).
Proof. unfold quoted. cbn [append error_text]. now rewrite append_assoc. Qed.

Lemma group_inside t d ts : tk_tree span t = TGroup d ts ->
  map (st_tree span) (match tk_with span t with STGroup _ _ inside _ => inside | _ => [] end) = ts.
Proof. unfold tk_tree. destruct (tk_with span t); try discriminate. now intros [= _ <-]. Qed.

Lemma consume_same b b' t : same_builder b b' ->
  same_builder (fst (sp_consume_next_token span join_spans b t)) (fst (consume_next_token b' (tk_tree span t))) /\
  same_consumed (snd (sp_consume_next_token span join_spans b t)) (snd (consume_next_token b' (tk_tree span t))).
Proof.
  intro B. unfold sp_consume_next_token, consume_next_token. destruct (tk_tree span t) as [d ts|c sp|n|l] eqn:T; cbn [fst snd].
  - split; [exact B|]. pose proof (group_inside _ _ _ T) as G.
    destruct d; simpl; unfold same_symbol, tokens_of, at_type; simpl; now rewrite ?T, ?G.
  - unfold sp_consume_next, consume_next. destruct b as [|m|m], b' as [|ts|ts]; try contradiction; simpl in B; subst.
    + destruct (eqb_spec c ";"%char);
      [subst c; cbn [fst snd]; (split; [simpl; now rewrite ?T|]); simpl; unfold same_symbol, tokens_of; simpl; now rewrite ?T|].
      destruct (eqb_spec c "#"%char);
      [subst c; cbn [fst snd]; (split; [simpl; now rewrite ?T|]); simpl; unfold same_symbol, tokens_of; simpl; now rewrite ?T|].
      destruct (eqb_spec c "<"%char);
      [subst c; cbn [fst snd]; (split; [simpl; now rewrite ?T|]); simpl; unfold same_symbol, tokens_of; simpl; now rewrite ?T|].
      destruct (eqb_spec c ">"%char);
      [subst c; cbn [fst snd]; (split; [simpl; now rewrite ?T|]); simpl; unfold same_symbol, tokens_of; simpl; now rewrite ?T|].
      destruct (eqb_spec c "|"%char);
      [subst c; cbn [fst snd]; (split; [simpl; now rewrite ?T|]); simpl; unfold same_symbol, tokens_of; simpl; now rewrite ?T|].
      destruct (eqb_spec c "!"%char);
      [subst c; cbn [fst snd]; (split; [simpl; now rewrite ?T|]); simpl; unfold same_symbol, tokens_of; simpl; now rewrite ?T|].
      destruct (eqb_spec c "="%char);
      [subst c; destruct sp; cbn [fst snd]; (split; [simpl; now rewrite ?T|]); simpl; unfold same_symbol, tokens_of; simpl; now rewrite ?T|].
      destruct (eqb_spec c ":"%char);
      [subst c; destruct sp; cbn [fst snd]; (split; [simpl; now rewrite ?T|]); simpl; unfold same_symbol, tokens_of; simpl; now rewrite ?T|].
      split; [exact I|reflexivity].
    + destruct (eqb c ">"%char); cbn [fst snd]; (split; [simpl; now rewrite ?T|]); simpl; unfold same_symbol, tokens_of; simpl; now rewrite ?T.
    + destruct (eqb c ":"%char); cbn [fst snd]; (split; [simpl; now rewrite ?T|]); simpl; unfold same_symbol, tokens_of; simpl; now rewrite ?T.
  - split; [exact B|]. unfold sp_from_ident, from_ident. destruct (string_is_identifier n); simpl.
    + unfold same_symbol, tokens_of; simpl; now rewrite ?T.
    + apply identifier_text.
  - split; [exact B|]. unfold sp_from_literal, from_literal. destruct (prefix "'" l); [simpl; unfold same_symbol, tokens_of; simpl; now rewrite ?T|].
    destruct (string_is_identifier l); simpl; [unfold same_symbol, tokens_of; simpl; now rewrite ?T|reflexivity].
Qed.

Lemma consume_error b t e : snd (consume_next_token b t) = Err e -> token_error e.
Proof.
  destruct t as [d g|c sp|n|l]; cbn [consume_next_token snd].
  - destruct d; try discriminate. intro E. injection E as <-. exists [TGroup NoDelimiter g]. constructor.
  - unfold consume_next. destruct b as [|m|m].
    + destruct (eqb_spec c ";"%char); [discriminate|]. destruct (eqb_spec c "#"%char); [discriminate|].
      destruct (eqb_spec c "<"%char); [discriminate|]. destruct (eqb_spec c ">"%char); [discriminate|].
      destruct (eqb_spec c "|"%char); [discriminate|]. destruct (eqb_spec c "!"%char); [discriminate|].
      destruct (eqb_spec c "="%char) as [->|]; [destruct sp; [|discriminate]; intro E; injection E as <-; exists [TPunct "=" Alone]; constructor|].
      destruct (eqb_spec c ":"%char); [destruct sp; discriminate|]. intro E. injection E as <-. exists [TPunct c sp].
      constructor; auto. intros o H. simpl in H. repeat destruct H as [H|H]; try contradiction; injection H as <- _; congruence.
    + destruct (eqb_spec c ">"%char); [discriminate|]. intro E. injection E as <-. exists [TPunct "=" Joint; TPunct c sp]. now constructor.
    + destruct (eqb_spec c ":"%char); [discriminate|]. intro E. injection E as <-. exists [TPunct ":" Joint; TPunct c sp]. now constructor.
  - unfold from_ident. destruct (string_is_identifier n) eqn:C; [discriminate|]. intro E. injection E as <-. exists [TIdent n].
    constructor. now apply identifier_no.
  - unfold from_literal. destruct (prefix "'" l) eqn:P; [discriminate|]. destruct (string_is_identifier l) eqn:C; [discriminate|].
    intro E. injection E as <-. exists [TLiteral l]. constructor; [now apply identifier_no|].
    intros l' ->. assert (Q : prefix "'" (String "'" l') = true) by (apply quote_ok; eauto). congruence.
Qed.

Lemma tokenize_same ts : forall b b', same_builder b b' ->
  Forall2 same_item (sp_tokenize span join_spans b ts) (tokenize b' (trees ts)).
Proof.
  induction ts as [|t ts IH]; intros b b' B; [constructor|]. cbn [sp_tokenize tokenize trees map].
  destruct (consume_same b b' t B) as [B1 R1].
  pose proof (consume_error b' (tk_tree span t)) as Ce.
  destruct (sp_consume_next_token span join_spans b t) as [c r], (consume_next_token b' (tk_tree span t)) as [c' r']. simpl in B1, R1, Ce.
  pose proof (IH _ _ B1) as F.
  destruct r as [[x|]|d| |], r' as [[y|]|e| |]; try contradiction; auto; constructor; simpl; auto.
Qed.

Lemma stream_same ts : Forall2 same_item (sp_tokenize_from_stream span join_spans ts) (tokenize_from_stream (trees ts)).
Proof. now apply tokenize_same. Qed.

Lemma spaced_tail a b : well_spaced (a ++ b) -> well_spaced b.
Proof. intros W l c r E. apply (W (a ++ l) c r). now rewrite E, app_assoc. Qed.

Lemma symbols_of_tokens ts : well_spaced (trees ts) -> symbols_at join_spans ts (sp_tokenize_from_stream span join_spans ts).
Proof.
  unfold sp_tokenize_from_stream. remember (List.length ts) as n eqn:En. revert ts En. induction n as [n IH] using lt_wf_ind. intros ts En W.
  destruct ts as [|t ts']; [constructor|].
  assert (One : forall x inside m ts2, ts' = ts2 -> symbol_tokens (at_type span (mk_at span x inside (mk_meta span (tk_span span t) [tk_tree span t]))) [tk_tree span t] ->
    sp_tokenize span join_spans (SpEmpty span) (t :: ts') = inl (mk_at span x inside (mk_meta span (tk_span span t) [tk_tree span t])) :: sp_tokenize span join_spans (SpEmpty span) ts' ->
    m = [tk_tree span t] -> (forall inside' s, tk_with span t = STGroup span Brace inside' s -> inside = inside') -> symbols_at join_spans (t :: ts') (sp_tokenize span join_spans (SpEmpty span) (t :: ts'))).
  { intros x inside m ts2 _ Hs -> _ In. apply sa_one; auto. apply (IH (List.length ts')); [subst n; simpl; lia|reflexivity|].
    exact (spaced_tail [tk_tree span t] _ W). }
  assert (Two : forall x t2 ts2, ts' = t2 :: ts2 -> symbol_tokens (at_type span (mk_at span x [] (mk_meta span (tk_span span t) []))) [tk_tree span t; tk_tree span t2] ->
    sp_tokenize span join_spans (SpEmpty span) (t :: ts') =
      inl (mk_at span x [] (merge (mk_meta span (tk_span span t) [tk_tree span t]) (mk_meta span (tk_span span t2) [tk_tree span t2]))) :: sp_tokenize span join_spans (SpEmpty span) ts2 ->
    symbols_at join_spans (t :: ts') (sp_tokenize span join_spans (SpEmpty span) (t :: ts'))).
  { intros x t2 ts2 -> Hs ->. apply sa_two; auto. apply (IH (List.length ts2)); [subst n; simpl; lia|reflexivity|].
    exact (spaced_tail [tk_tree span t; tk_tree span t2] _ W). }
  destruct (first_symbol (trees (t :: ts')) ltac:(discriminate) W) as [(x & r & Hx & E)|(e & Bd)].
  - unfold symbol_ok in Hx. destruct x as [x m]. cbn [sym_type sym_meta] in *. destruct t as [st o0].
    pose proof Hx as Hx'. cbn [trees map] in E.
    destruct Hx' as [c o sp Hc| |sp|sp|n0 I0|n0 I0|l|b|b|b].
    all: cbn [app] in E; injection E as Et E2; destruct st as [d0 g0 s0|c0 p0 s0|n1 s0|l1 s0]; try discriminate Et; injection Et; intros; subst.
    + eapply One with (x := SOp o) (inside := []); [reflexivity|exact Hx| |reflexivity|discriminate].
      simpl in Hc. repeat destruct Hc as [Hc|Hc]; try contradiction; injection Hc as <- <-; reflexivity.
    + eapply One; [reflexivity| |reflexivity|reflexivity|]; [exact Hx|]; cbn; congruence.
    + destruct ts' as [|[[d2 g2 s2|c2 p2 s2|n2 s2|l2 s2] o2] ts2]; try discriminate E2. injection E2 as -> -> E2.
      eapply Two; [reflexivity| |reflexivity]. exact Hx.
    + destruct ts' as [|[[d2 g2 s2|c2 p2 s2|n2 s2|l2 s2] o2] ts2]; try discriminate E2. injection E2 as -> -> E2.
      eapply Two; [reflexivity| |reflexivity]. exact Hx.
    + eapply One with (x := SIdent n0) (inside := []); [reflexivity|exact Hx| |reflexivity|discriminate].
      apply identifier_ok in I0. cbn [sp_tokenize]. unfold sp_consume_next_token, sp_from_ident. cbn [tk_tree tk_with st_tree]. rewrite I0. reflexivity.
    + eapply One with (x := SIdent n0) (inside := []); [reflexivity|exact Hx| |reflexivity|discriminate].
      pose proof I0 as I1. apply identifier_ok in I0. cbn [sp_tokenize]. unfold sp_consume_next_token, sp_from_literal. cbn [tk_tree tk_with st_tree].
      rewrite quote_no by auto. rewrite I0. reflexivity.
    + eapply One with (x := SLiteral (String "'" l)) (inside := []); [reflexivity|exact Hx| |reflexivity|discriminate].
      cbn [sp_tokenize]. unfold sp_consume_next_token, sp_from_literal. cbn [tk_tree tk_with st_tree].
      assert (Q : prefix "'" (String "'" l) = true) by (apply quote_ok; eauto). rewrite Q. reflexivity.
    + eapply One; [reflexivity| |reflexivity|reflexivity|]; [exact Hx|]; cbn; congruence.
    + eapply One; [reflexivity| |reflexivity|reflexivity|]; [exact Hx|]; cbn; congruence.
    + eapply One; [reflexivity| |reflexivity|reflexivity|]; [exact Hx|]; cbn; congruence.
  - assert (Go : exists s r, sp_tokenize span join_spans (SpEmpty span) (t :: ts') = inr (mk_diag span (error_text e) s) :: r /\ bad_span e (t :: ts') s);
      [|destruct Go as (s & r & -> & Bs); now constructor].
    clear One Two IH. destruct t as [tr o0]. cbn [trees map] in Bd.
    remember (tk_tree span (mk_token span tr o0) :: map (tk_tree span) ts') as l eqn:El.
    destruct Bd as [g r|n0 r N|l r N Q|r|c sp r N|c sp r N|c sp r N N1 N2]; injection El as Et Er;
      destruct tr as [d0 g0 s0|c0 p0 s0|n1 s0|l1 s0]; try discriminate Et; injection Et; intros; subst.
    + do 2 eexists. split; [reflexivity|]. simpl. eauto.
    + apply identifier_no in N. cbn [sp_tokenize]. unfold sp_consume_next_token, sp_from_ident. cbn [tk_tree tk_with st_tree]. rewrite N, identifier_text.
      do 2 eexists. split; [reflexivity|]. simpl. eauto.
    + cbn [sp_tokenize]. unfold sp_consume_next_token, sp_from_literal. cbn [tk_tree tk_with st_tree].
      destruct (prefix "'" l1) eqn:P; [apply quote_ok in P as [l' ->]; now destruct (Q l')|].
      apply identifier_no in N. rewrite N. do 2 eexists. split; [reflexivity|]. simpl. eauto.
    + do 2 eexists. split; [reflexivity|]. simpl. eauto.
    + destruct ts' as [|[[d2 g2 s2|c2 p2 s2|n2 s2|l2 s2] o2] ts2]; try discriminate Er. injection Er as -> -> E2.
      cbn [sp_tokenize sp_consume_next_token tk_tree]. cbn. destruct (eqb_spec c2 ">"%char); [contradiction|].
      do 2 eexists. split; [reflexivity|]. simpl. eauto 6.
    + destruct ts' as [|[[d2 g2 s2|c2 p2 s2|n2 s2|l2 s2] o2] ts2]; try discriminate Er. injection Er as -> -> E2.
      cbn [sp_tokenize sp_consume_next_token tk_tree]. cbn. destruct (eqb_spec c2 ":"%char); [contradiction|].
      do 2 eexists. split; [reflexivity|]. simpl. eauto 6.
    + cbn [sp_tokenize]. unfold sp_consume_next_token, sp_consume_next. cbn [tk_tree tk_with st_tree].
      destruct (eqb_spec c0 ";"%char) as [->|]; [destruct (N Semicolon); simpl; tauto|].
      destruct (eqb_spec c0 "#"%char) as [->|]; [destruct (N NumberSign); simpl; tauto|].
      destruct (eqb_spec c0 "<"%char) as [->|]; [destruct (N BeginProd); simpl; tauto|].
      destruct (eqb_spec c0 ">"%char) as [->|]; [destruct (N EndProd); simpl; tauto|].
      destruct (eqb_spec c0 "|"%char) as [->|]; [destruct (N Pipe); simpl; tauto|].
      destruct (eqb_spec c0 "!"%char) as [->|]; [destruct (N Bang); simpl; tauto|].
      destruct (eqb_spec c0 "="%char); [contradiction|]. destruct (eqb_spec c0 ":"%char); [contradiction|].
      do 2 eexists. split; [reflexivity|]. simpl. eauto.
Qed.

(** ** Both together *)

Lemma tokens_clean ts : clean (tokenize_from_stream ts).
Proof.
  unfold clean, tokenize_from_stream. generalize PBEmpty. induction ts as [|t ts IH]; intro b; [auto|]. cbn [tokenize].
  pose proof (consume_error b t) as Ce.
  destruct (consume_next_token b t) as [b' [[x|]|e| |]]; simpl in Ce; auto; intros [H|H]; try discriminate; try (now apply (IH b')).
  injection H as ->. destruct (Ce _ eq_refl) as [us A]. inversion A.
Qed.

Theorem diagnostics_located ts : well_spaced (trees ts) -> exists its, symbols_at join_spans ts its /\
  match sp_parse_declarations span call_site join_spans print (stream_new span (sp_tokenize_from_stream span join_spans ts)) with
  | Ok _ => exists xs, its = map inl xs /\ matches a_file (types_at xs)
  | Err d => exists e, located its e d
  | _ => False
  end.
Proof.
  intro W. exists (sp_tokenize_from_stream span join_spans ts). split; [now apply symbols_of_tokens|].
  pose proof (declarations_post _ _ (stream_same ts)) as R.
  pose proof (declarations_total print _ (tokens_clean (trees ts))) as T.
  destruct (sp_parse_declarations _ _ _ _ _) as [d|d| |], (parse_declarations print _) as [d'|e| |]; simpl in R; try contradiction; eauto.
  destruct R as (_ & xs & H). eauto.
Qed.

Lemma located_text its e d : located its e d -> noted (error_text e) (dg_message span d).
Proof. intro Loc. destruct Loc as [| ? ? ? ? ? ? ? ? E| | |]; simpl; auto. now rewrite <- E. Qed.

Lemma located_not_grammar its e d : located its e d -> forall g, e <> GrammarError g.
Proof.
  intros Loc g. destruct Loc as [? ? ? ? ? ? ? A| ? ? ? ? ? ? ? [ts A]| | |]; try discriminate.
  - intros ->. destruct A as [A|[u A]]; [discriminate|inversion A].
  - intros ->. inversion A.
Qed.

Lemma rule_said r : rule_text r (show_rule_id r).
Proof. constructor. apply TextLayout.decimal_numeral. Qed.

Lemma token_said a : token_text a (show_aug show_user_symbol a).
Proof.
  destruct a as [[n []]| |]; simpl; try constructor. unfold show_user_symbol. cbn [sname sparen].
  replace (n ++ "")%string with n; [constructor|]. induction n as [|c n IH]; [reflexivity|]. cbn [append]. now rewrite <- IH.
Qed.

Lemma labels_said ls : labels_text ls (Model.TableText.join ", " (map show_ref_name ls)).
Proof.
  induction ls as [|l ls IH]; [constructor|]. destruct ls as [|l' ls]; [constructor|]. cbn [map] in *.
  change (Model.TableText.join ", " (show_ref_name l :: show_ref_name l' :: map show_ref_name ls)) with
    (show_ref_name l ++ ", " ++ Model.TableText.join ", " (show_ref_name l' :: map show_ref_name ls))%string.
  unfold show_ref_name at 1. rewrite !append_assoc. apply (lt_more l (l' :: ls)); [discriminate|exact IH].
Qed.

Lemma grammar_said g : grammar_text g (show_lr_error show_user_symbol show_ref_name g).
Proof.
  destruct g as [[| | |ls]|l|a|r a|r1 r2 a| | |m]; cbn [show_lr_error show_build_grammar_error]; try constructor;
    auto using rule_said, token_said, labels_said.
  unfold quoted, show_ref_name. rewrite !append_assoc. constructor.
Qed.

Theorem grammar_same (bm : BuildMode) fuel ts :
  match sp_parse_grammar span call_site join_spans print fuel (stream_new span (sp_tokenize_from_stream span join_spans ts)),
        parse_grammar print fuel (tokenize_from_stream (trees ts)) with
  | Ok r, Ok r' => r = r'
  | Err d, Err (GrammarError g) => grammar_text g (dg_message span d) /\ dg_span span d = call_site
  | Err d, Err e => noted (error_text e) (dg_message span d)
  | Panic w, Panic w' => w = w'
  | Diverge, Diverge => True
  | _, _ => False
  end.
Proof.
  unfold sp_parse_grammar, parse_grammar. pose proof (declarations_post _ _ (stream_same ts)) as R.
  destruct (sp_parse_declarations _ _ _ _ _) as [d|d|w|], (parse_declarations print _) as [d'|e|w'|]; simpl in R; try contradiction; cbn [bind].
  - destruct R as [-> _]. cbn [d_rules erase_declarations]. unfold sp_grammar_info, from_lr_error.
    destruct (indexed_build fuel _) as [ig|g|w|]; cbn [lift_lr map_err bind]; auto.
    + destruct (table_build ig fuel) as [tb|g|w|]; cbn [lift_lr map_err bind]; auto.
      split; [apply grammar_said|reflexivity].
    + split; [apply grammar_said|reflexivity].
  - pose proof (located_text _ _ _ R) as N. pose proof (located_not_grammar _ _ _ R) as G. destruct e; auto. now destruct (G e).
  - exact R.
  - exact I.
Qed.

(** The input ends too early: the place is that of some symbol, or the macro. *)
Theorem end_of_input_somewhere ts d : well_spaced (trees ts) ->
  sp_parse_declarations span call_site join_spans print (stream_new span (sp_tokenize_from_stream span join_spans ts)) = Err d ->
  parse_declarations print (tokenize_from_stream (trees ts)) = Err UnexpectedEnd ->
  exists xs, symbols_at join_spans ts (map inl xs) /\ starts (types_at xs) /\ ~ matches a_file (types_at xs) /\
    (dg_span span d = call_site \/ In (dg_span span d) (map span_of xs)).
Proof.
  intros W E1 E2. pose proof (declarations_post _ _ (stream_same ts)) as R. rewrite E1, E2 in R. simpl in R.
  pose proof (symbols_of_tokens ts W) as Sy.
  remember (sp_tokenize_from_stream span join_spans ts) as its eqn:Ei. remember UnexpectedEnd as e eqn:Ee. clear Ei E1 E2.
  destruct R as [? ? ? ? ? ? ? A| ? ? ? ? ? ? ? [us A]|pre msg s S N _ P| |]; try discriminate.
  - subst. destruct A as [A|[u A]]; [discriminate|inversion A].
  - subst. inversion A.
  - exists pre. auto.
Qed.

End Spans.
