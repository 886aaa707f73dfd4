(** Reading the input of [grammar!] ends, and does not panic; two types for one
    label are reported. *)
From Coq Require Import Arith Bool String Ascii List Lia.
From Verif Require Import Base.Prelude Model.TokenTree Model.Terminal Model.Constructor Model.Symbol Model.FrontEnd.
From Verif Require Import Spec.Macro Proofs.Macro.
Import ListNotations.
Open Scope string_scope.
Open Scope list_scope.

Notation "xs +> s" := (map inl xs ++ s) (at level 60, right associativity).

(** No item of the stream is the error for two types. *)
Definition clean (s : stream) : Prop := ~ In (inr DifferentReturnTypes) s.

(** A parser that leaves fewer than [n] items of a clean stream, or reports
    another error. *)
Definition reads {A} (n : nat) (m : outcome front_error (A * stream)) : Prop :=
  match m with
  | Ok (_, s') => List.length s' < n /\ clean s'
  | Err e => e <> DifferentReturnTypes
  | _ => False
  end.

Lemma reads_bind {A B} n n' (m : outcome front_error (A * stream)) (k : A * stream -> outcome front_error (B * stream)) :
  reads n m -> (forall a s', List.length s' < n -> clean s' -> reads n' (k (a, s'))) -> reads n' (bind m k).
Proof. destruct m as [[a s']| | |]; simpl; try tauto. intros [H1 H2] K. auto. Qed.

Lemma reads_weaken {A} n n' (m : outcome front_error (A * stream)) : reads n m -> n <= n' -> reads n' m.
Proof. destruct m as [[a s']| | |]; simpl; try tauto. intros [H1 H2] L. split; [lia|auto]. Qed.

Lemma clean_tail i s : clean (i :: s) -> clean s.
Proof. unfold clean. simpl. tauto. Qed.

Lemma expect_reads s : clean s -> reads (List.length s) (expect_symbol s).
Proof.
  destruct s as [|[x|e] s]; simpl; intro C; try discriminate.
  - split; [lia|]. now apply clean_tail in C.
  - intros ->. apply C. simpl. auto.
Qed.

Lemma with_reads s cmp msg : clean s -> msg <> DifferentReturnTypes -> reads (List.length s) (expect_symbol_with s cmp msg).
Proof.
  intros C N. unfold expect_symbol_with. apply (reads_bind (List.length s)).
  - now apply expect_reads.
  - intros x s' L C'. destruct (cmp _); simpl; auto.
Qed.

Lemma type_rest_reads s : forall m, clean s -> reads (S (List.length s)) (type_rest m s).
Proof.
  induction s as [|[x|e] s IH]; intros m C; cbn [type_rest].
  - discriminate.
  - destruct (_ || _).
    + simpl. split; [lia|auto].
    + apply (reads_weaken (S (List.length s))); [|simpl; lia]. apply IH. now apply clean_tail in C.
  - simpl. intros ->. apply C. simpl. auto.
Qed.

Lemma type_reads s : clean s -> reads (List.length s) (type_parse s).
Proof.
  intro C. unfold type_parse. apply (reads_bind (List.length s)); [now apply expect_reads|].
  intros x s' L C'. apply (reads_weaken (S (List.length s'))); [|lia]. now apply type_rest_reads.
Qed.

Lemma ref_reads s : clean s -> reads (List.length s) (production_ref_parse s).
Proof.
  intro C. unfold production_ref_parse. apply (reads_bind (List.length s)); [apply with_reads; auto; discriminate|].
  intros m s1 L1 C1. apply (reads_bind (List.length s1)); [now apply expect_reads|].
  intros x s2 L2 C2. destruct (sym_type x); try discriminate. cbn [bind].
  apply (reads_bind (List.length s2)); [apply with_reads; auto; discriminate|].
  intros m' s3 L3 C3. simpl. split; [lia|auto].
Qed.

Lemma ident_reads s : clean s -> reads (List.length s) (ident_parse s).
Proof.
  intro C. unfold ident_parse. apply (reads_bind (List.length s)); [now apply expect_reads|].
  intros x s' L C'. destruct (sym_type x); try discriminate. simpl. auto.
Qed.

Section FrontEnd.
Context {bm : BuildMode}.
Variable print : list ttree -> string.

Lemma node_reads s : clean s -> reads (List.length s) (production_node_parse print s).
Proof.
  intro C. unfold production_node_parse.
  assert (G : reads (List.length s) (terminal_parse print s)).
  { unfold terminal_parse. apply (reads_bind (List.length s)); [now apply expect_reads|].
    intros x s1 L1 C1. destruct (sym_type x) as [op| | | | |]; try discriminate.
    - destruct op; try discriminate. simpl. auto.
    - unfold parse_ident. destruct s1 as [|[y|e] s2]; cbn [peek_expect_symbol bind]; try discriminate.
      + assert (C2 := clean_tail _ _ C1).
        destruct (sym_type y); try (simpl; auto; fail). simpl in L1. destruct (is_wildcard ts); simpl; split; auto; lia.
      + simpl. intros ->. apply C1. simpl. auto.
    - simpl. auto. }
  destruct s as [|[x|e] s]; cbn [peek_expect_symbol bind].
  - discriminate.
  - destruct (sym_type x) as [op| | | | |]; auto. destruct op; auto.
    apply (reads_bind (List.length (inl x :: s))); [now apply ref_reads|]. intros n s' L C'. simpl. auto.
  - simpl. intros ->. apply C. simpl. auto.
Qed.

Lemma return_type_reads s : clean s -> reads (S (List.length s)) (maybe_parse_return_type s).
Proof.
  intro C. unfold maybe_parse_return_type. destruct s as [|[x|e] s]; cbn [peek_expect_symbol bind].
  - discriminate.
  - assert (G : reads (A := option (list ttree)) (S (List.length (inl x :: s))) (Ok (None, inl x :: s))).
    { simpl. split; [lia|auto]. }
    destruct (sym_type x) as [op| | | | |]; auto. destruct op; auto.
    apply (reads_bind (List.length s)); [apply type_reads; now apply clean_tail in C|].
    intros ty s' L C'. simpl. split; [lia|auto].
  - simpl. intros ->. apply C. simpl. auto.
Qed.

Lemma rule_loop_reads fuel : forall rule s, clean s -> List.length s < fuel -> reads (S (List.length s)) (rule_loop print fuel rule s).
Proof.
  induction fuel as [|fuel IH]; intros rule s C L; [lia|]. cbn [rule_loop].
  destruct s as [|[x|e] s]; cbn [peek_expect_symbol bind].
  - discriminate.
  - assert (C' := clean_tail _ _ C).
    assert (G : reads (S (List.length (inl x :: s))) ('(node, s) <- production_node_parse print (inl x :: s);; rule_loop print fuel (rule ++ [node]) s)).
    { apply (reads_bind (List.length (inl x :: s))); [now apply node_reads|]. intros n s' L' Cs'.
      apply (reads_weaken (S (List.length s'))); [|lia]. apply IH; auto. lia. }
    destruct (sym_type x) as [op| | |d ts| |]; auto.
    + destruct op; auto; simpl; split; auto.
    + simpl. split; [lia|auto].
  - simpl. intros ->. apply C. simpl. auto.
Qed.

Lemma parse_rule_reads s name ty : clean s -> reads (List.length s) (parse_rule print s name ty).
Proof.
  intro C. unfold parse_rule. apply (reads_bind (List.length s)); [now apply node_reads|].
  intros n s1 L1 C1. apply (reads_bind (S (List.length s1))); [apply rule_loop_reads; auto|].
  intros [rule block] s2 L2 C2. destruct (_ && _); [discriminate|]. simpl. split; [lia|auto].
Qed.

Lemma alternatives_reads fuel name ty : forall rules s, clean s -> List.length s < fuel ->
  reads (List.length s) (alternatives print fuel name ty rules s).
Proof.
  induction fuel as [|fuel IH]; intros rules s C L; [lia|]. cbn [alternatives].
  apply (reads_bind (List.length s)); [now apply expect_reads|]. intros x s1 L1 C1.
  destruct (sym_type x) as [op| | | | |]; try discriminate. destruct op; try discriminate.
  - simpl. auto.
  - apply (reads_bind (List.length s1)); [now apply parse_rule_reads|]. intros r s2 L2 C2.
    apply (reads_weaken (List.length s2)); [|lia]. apply IH; auto. lia.
Qed.

Lemma return_type_ends s ty s' : maybe_parse_return_type s = Ok (ty, s') ->
  exists xs y q, s = xs +> s' /\ s' = [y] +> q /\ return_type_syms ty xs /\ ends_type ty y.
Proof.
  unfold maybe_parse_return_type. destruct s as [|[x|e] s]; try discriminate. cbn [peek_expect_symbol bind].
  assert (G : sym_type x <> SOp Colon -> Ok (None, inl x :: s) = Ok (E := front_error) (ty, s') ->
    exists xs y q, inl x :: s = xs +> s' /\ s' = [y] +> q /\ return_type_syms ty xs /\ ends_type ty y).
  { intros N E. injection E as <- <-. exists [], x, s. repeat split; auto. constructor. }
  destruct (sym_type x) as [op| | | | |] eqn:T; try (apply G; congruence). destruct op; try (apply G; congruence).
  destruct (type_parse s) as [[t s1]| | |] eqn:P; try discriminate. cbn [bind]. intro E. injection E as <- <-.
  apply type_ok in P as (xs & -> & Ts & y & q & -> & O). exists (x :: xs), y, q. repeat split; auto. now constructor.
Qed.

Lemma return_type_complete' ty xs y q : return_type_syms ty xs -> ends_type ty y ->
  maybe_parse_return_type (xs +> [y] +> q) = Ok (ty, [y] +> q).
Proof.
  intros R Tx. unfold maybe_parse_return_type. destruct R as [|x ty xs Ty Ts]; cbn [map app peek_expect_symbol bind].
  - simpl in Tx. destruct (sym_type y) as [op| | | | |]; try reflexivity. destruct op; try reflexivity. congruence.
  - rewrite Ty. rewrite (proj2 (type_ok _ ty (inl y :: q))); auto. exists xs. repeat split; auto. exists y, q. auto.
Qed.

(** [<label>: type] and the symbol after it. *)
Inductive head_syms (label : string) (ty : option (list ttree)) : list sym -> Prop :=
| hs_head xl xr y : types xl = [SOp BeginProd; SIdent label; SOp EndProd] ->
    return_type_syms ty xr -> ends_type ty y -> head_syms label ty ((xl ++ xr) ++ [y]).

Lemma add_cases m ds label ty : typed_so_far print m ds ->
  (exists m', label_types_add print m label ty = Ok m') \/
  (label_types_add print m label ty = Err DifferentReturnTypes /\
   exists d', In d' ds /\ dc_label d' = label /\ ~ same_type print (dc_type d') ty).
Proof.
  intro Ty. destruct (add_ok print m ds (mk_declaration label ty []) Ty) as [(m' & E & _)|H]; [left|right]; eauto.
Qed.

(** A declaration is read, or an error reported. *)
Lemma declaration_reads s m ds : typed_so_far print m ds -> clean s ->
  reads (List.length s) (production_rule_parse print s m) \/
  (production_rule_parse print s m = Err DifferentReturnTypes /\
   exists label ty xs s', s = xs +> s' /\ head_syms label ty xs /\
     exists d', In d' ds /\ dc_label d' = label /\ ~ same_type print (dc_type d') ty).
Proof.
  intros Ty C. unfold production_rule_parse.
  pose proof (ref_reads s C) as R1. destruct (production_ref_parse s) as [[label s1]|e|why|] eqn:P1; simpl in R1; try tauto; try (now left).
  destruct R1 as [L1 C1]. cbn [bind].
  pose proof (return_type_reads s1 C1) as R2. destruct (maybe_parse_return_type s1) as [[ty s2]|e|why|] eqn:P2; simpl in R2; try tauto; try (now left).
  destruct R2 as [L2 C2]. cbn [bind].
  destruct (add_cases m ds label ty Ty) as [(m' & ->)|[-> H]].
  - left. cbn [bind].
    apply (reads_bind (List.length s2)); [apply with_reads; auto; discriminate|]. intros mt s3 L3 C3.
    apply (reads_bind (List.length s3)); [now apply parse_rule_reads|]. intros r s4 L4 C4.
    apply (reads_bind (List.length s4)); [apply alternatives_reads; auto|]. intros rs s5 L5 C5. simpl. split; [lia|auto].
  - right. cbn [bind]. split; auto. apply ref_ok in P1 as (xl & -> & T1). apply return_type_ends in P2 as (xt & y & q & -> & -> & T2 & T3).
    exists label, ty, ((xl ++ xt) ++ [y]), q. rewrite !app_map_app. repeat split; auto.
Qed.

Lemma rules_loop_reads fuel : forall m rs s ds, typed_so_far print m ds -> clean s -> List.length s < fuel ->
  match rules_loop print fuel m rs s with
  | Ok _ => True
  | Err DifferentReturnTypes => exists ds' label ty xd xh s', s = (xd ++ xh) +> s' /\ declarations_syms print ds' xd /\
      one_type_each print (ds ++ ds') /\ head_syms label ty xh /\
      exists d, In d (ds ++ ds') /\ dc_label d = label /\ ~ same_type print (dc_type d) ty
  | Err _ => True
  | _ => False
  end.
Proof.
  induction fuel as [|fuel IH]; intros m rs s ds Ty C L; [lia|]. cbn [rules_loop].
  destruct s as [|i s]; [exact I|]. set (q := i :: s) in *.
  destruct (declaration_reads q m ds Ty C) as [R|[-> (label & ty & xs & s' & E & H & D)]].
  - destruct (production_rule_parse print q m) as [[[r1 m1] s1]|e|why|] eqn:P; simpl in R; try tauto; try (destruct e; simpl; auto; congruence).
    destruct R as [L1 C1]. cbn [bind].
    apply (declaration_sound print _ _ _ _ _ ds Ty) in P as (d & xs & E & D & -> & Ty1).
    assert (L' : List.length s1 < fuel) by (unfold q in *; simpl in L, L1; lia).
    specialize (IH m1 (rs ++ rules_of d) s1 (ds ++ [d]) Ty1 C1 L').
    destruct (rules_loop print fuel m1 _ s1) as [|e| |]; auto. destruct e; auto.
    destruct IH as (ds' & label & ty & xd & xh & s' & Es & Dd & O & H & d' & Hd' & K).
    exists (d :: ds'), label, ty, (xs ++ xd), xh, s'. rewrite <- app_assoc in O, Hd'.
    split; [rewrite E, Es, !app_map_app; reflexivity|]. split; [now constructor|]. repeat split; auto.
    exists d'. auto.
  - cbn [bind]. exists [], label, ty, [], xs, s'. rewrite app_nil_r. repeat split; auto; [constructor|apply Ty].
Qed.

Lemma remainder_reads {T} s kw (p : stream -> outcome front_error (T * stream)) : clean s ->
  (forall s', clean s' -> reads (List.length s') (p s')) -> reads (List.length s) (parse_option_remainder s kw p).
Proof.
  intros C P. unfold parse_option_remainder. apply (reads_bind (List.length s)); [apply with_reads; auto; discriminate|].
  intros m s1 L1 C1. apply (reads_bind (List.length s1)); [auto|]. intros v s2 L2 C2.
  apply (reads_bind (List.length s2)); [apply with_reads; auto; discriminate|]. intros m' s3 L3 C3. simpl. split; [lia|auto].
Qed.

Lemma type_option_reads {T} (f : list ttree -> T) s kw : clean s ->
  reads (List.length s) (parse_option_remainder s kw (fun s => '(ty, s) <- type_parse s ;; Ok (f ty, s))).
Proof.
  intro C. apply remainder_reads; auto. intros s' C'. apply (reads_bind (List.length s')); [now apply type_reads|].
  intros ty s2 L2 C2. simpl. auto.
Qed.

Lemma name_reads s : clean s -> reads (List.length s) (parse_name s).
Proof.
  intro C. unfold parse_name, parse_option. apply (reads_bind (List.length s)); [apply with_reads; auto; discriminate|].
  intros m s1 L1 C1. apply (reads_weaken (List.length s1)); [|lia]. apply remainder_reads; auto. apply ident_reads.
Qed.

Lemma terminal_type_reads s : clean s -> reads (List.length s) (parse_terminal_symbol_type s).
Proof.
  intro C. unfold parse_terminal_symbol_type. apply (reads_bind (List.length s)); [now apply expect_reads|].
  intros x s1 L1 C1. destruct (is_identifier_with_name _ "terminal").
  - apply (reads_weaken (List.length s1)); [|lia]. now apply type_option_reads.
  - destruct (is_identifier_with_name _ "enum_terminal"); [|discriminate].
    apply (reads_weaken (List.length s1)); [|lia]. now apply type_option_reads.
Qed.

Lemma error_type_reads s : clean s -> reads (S (List.length s)) (maybe_parse_error_type s).
Proof.
  intro C. unfold maybe_parse_error_type. destruct s as [|[x|e] s]; cbn [peek_expect_symbol bind].
  - discriminate.
  - destruct (negb _); [simpl; split; auto|]. apply (reads_weaken (List.length s)); [|simpl; lia].
    apply type_option_reads. now apply clean_tail in C.
  - simpl. intros ->. apply C. simpl. auto.
Qed.

Lemma declarations_total s : clean s ->
  match parse_declarations print s with
  | Ok _ => True
  | Err DifferentReturnTypes => exists xs s', s = xs +> s' /\ conflict_syms print xs
  | Err _ => True
  | _ => False
  end.
Proof.
  intro C. unfold parse_declarations.
  pose proof (name_reads s C) as R1. destruct (parse_name s) as [[n s1]|e|why|] eqn:P1; simpl in R1; try tauto; try (destruct e; simpl; auto; congruence).
  destruct R1 as [L1 C1]. cbn [bind].
  pose proof (terminal_type_reads s1 C1) as R2. destruct (parse_terminal_symbol_type s1) as [[tt s2]|e|why|] eqn:P2; simpl in R2; try tauto; try (destruct e; simpl; auto; congruence).
  destruct R2 as [L2 C2]. cbn [bind].
  pose proof (error_type_reads s2 C2) as R3. destruct (maybe_parse_error_type s2) as [[et s3]|e|why|] eqn:P3; simpl in R3; try tauto; try (destruct e; simpl; auto; congruence).
  destruct R3 as [L3 C3]. cbn [bind].
  pose proof (rules_loop_reads (S (List.length s3)) [] [] s3 [] (typed_nothing print) C3 ltac:(lia)) as R4.
  destruct (rules_loop print _ [] [] s3) as [[m rs]|e|why|] eqn:P4; cbn [bind]; auto. destruct e; auto.
  destruct R4 as (ds & label & ty & xd & xh & s' & -> & D & O & H & d & Hd & Ld & Nd). simpl in O, Hd.
  apply name_ok in P1 as (xn & -> & T1). apply terminal_type_ok in P2 as (xt & -> & T2).
  apply error_type_sound in P3 as (xe & -> & T3 & N3).
  exists (xn ++ xt ++ xe ++ xd ++ xh), s'. split; [now rewrite !app_map_app|]. destruct H. econstructor; eauto.
Qed.

(** Conversely, a conflict is reported. *)
Lemma rules_loop_prefix ds' xs : declarations_syms print ds' xs -> forall fuel m rs ds s, typed_so_far print m ds ->
  one_type_each print (ds ++ ds') -> s <> [] -> List.length xs < fuel ->
  exists m' fuel', rules_loop print fuel m rs (xs +> s) = rules_loop print (S fuel') m' (rs ++ flat_map rules_of ds') s /\
    typed_so_far print m' (ds ++ ds').
Proof.
  induction 1 as [|d xs ds' ys D Ds IH]; intros fuel m rs ds s Ty O Ns L; (destruct fuel as [|fuel]; [lia|]).
  - exists m, fuel. rewrite !app_nil_r. auto.
  - assert (O1 : one_type_each print (ds ++ [d])).
    { apply one_type_prefix with (ds2 := ds'). now rewrite <- app_assoc. }
    destruct (declaration_complete print d xs m ds (ys +> s) Ty D O1) as (m1 & P & Ty1).
    destruct (IH fuel m1 (rs ++ rules_of d) (ds ++ [d]) s Ty1) as (m' & fuel' & P' & Ty'); auto.
    + now rewrite <- app_assoc.
    + rewrite app_length in L. pose proof (declaration_ne _ _ _ D). destruct xs; [congruence|]. simpl in L. lia.
    + exists m', fuel'. rewrite <- app_assoc in Ty'. split; auto. rewrite app_map_app. cbn [rules_loop].
      destruct (xs +> ys +> s) as [|i q] eqn:E.
      * apply app_eq_nil in E as [E _]. pose proof (declaration_ne _ _ _ D). now destruct xs.
      * rewrite P. cbn [bind]. rewrite P'. simpl. now rewrite <- app_assoc.
Qed.

Lemma conflict_reported label ty xh m ds s : typed_so_far print m ds -> head_syms label ty xh ->
  (exists d, In d ds /\ dc_label d = label /\ ~ same_type print (dc_type d) ty) ->
  production_rule_parse print (xh +> s) m = Err DifferentReturnTypes.
Proof.
  intros Ty [xl xt y Tl Tt Tx] (d & Hd & Ld & Nd). unfold production_rule_parse. rewrite !app_map_app.
  rewrite (proj2 (ref_ok _ label (xt +> [y] +> s))) by eauto. cbn [bind].
  rewrite (return_type_complete' ty xt y s Tt Tx). cbn [bind].
  destruct (add_ok print m ds (mk_declaration label ty []) Ty) as [(m' & _ & _ & O)|[E _]].
  - exfalso. apply Nd. apply (O d (mk_declaration label ty [])); auto; apply in_app_iff; simpl; auto.
  - cbn [dc_label dc_type] in E. now rewrite E.
Qed.

Lemma declarations_conflict xs s : conflict_syms print xs -> parse_declarations print (xs +> s) = Err DifferentReturnTypes.
Proof.
  intros Hc. destruct Hc as [n tt et ds d label ty xn xt xe xd xl xr y Tn Tt Te Td O Tl Tr Ty Hd Ld Nd].
  assert (Hh : head_syms label ty ((xl ++ xr) ++ [y])) by now constructor.
  set (xh := (xl ++ xr) ++ [y]) in *. assert (Hx : exists x q, xh = x :: q /\ sym_type x = SOp BeginProd).
  { unfold xh. split_types. eexists _, _. split; [reflexivity|auto]. }
  destruct Hx as (x & q & Ex & Tx).
  unfold parse_declarations. rewrite !app_map_app.
  rewrite (proj2 (name_ok _ n (xt +> xe +> xd +> xh +> s))) by eauto. cbn [bind].
  rewrite (proj2 (terminal_type_ok _ tt (xe +> xd +> xh +> s))) by eauto. cbn [bind].
  rewrite (error_type_complete et xe); auto.
  - cbn [bind].
    destruct (rules_loop_prefix ds xd Td (S (List.length (xd +> xh +> s))) [] [] [] (xh +> s) (typed_nothing print) O) as (m & fuel & P & Ty').
    + rewrite Ex. discriminate.
    + rewrite length_stream. lia.
    + rewrite P. simpl in Ty'. cbn [rules_loop].
      rewrite (conflict_reported label ty xh m ds s Ty' Hh (ex_intro _ d (conj Hd (conj Ld Nd)))).
      rewrite Ex. reflexivity.
  - intro Et. destruct Td as [|d1 x1 ds' ys D Ds].
    + rewrite Ex. exists x, (q +> s). split; [reflexivity|]. congruence.
    + destruct D as [? ? ? ? ? ? ? ? Tl']. clear Tl Hh Ex. clearbody xh. split_types. eexists _, _. split; [reflexivity|]. congruence.
Qed.

End FrontEnd.
