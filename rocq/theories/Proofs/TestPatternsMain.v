(** What the parsers of the tests with patterns compute (C71). *)
From Coq Require Import Arith Bool String Ascii NArith List Lia.
From Verif Require Import Base.Prelude Spec.Grammar Spec.Validity Spec.Observers Spec.Nullable Spec.LR1 Model.Error.
From Verif Require Import Model.TokenTree Model.Terminal Model.Constructor Model.CodeGen Model.Runtime Model.Symbol Model.FrontEnd.
From Verif Require Import Model.Rust Model.Emit Model.TestGrammars.
From Verif Require Import Spec.EmittedCode Spec.Meaning Spec.Causes Spec.Overlaps Spec.TestLanguages Spec.TestPatterns Spec.Values.
From Verif Require Import Proofs.MacroRefute Proofs.Meaning Proofs.TestGrammars Proofs.TestLanguages Proofs.TestFailures Proofs.TestSmall Proofs.TestPatterns.
Import ListNotations.
Open Scope string_scope.
Open Scope list_scope.

Section LookUp.
Variable print : list ttree -> string.
Lemma look_up_at {A} (pre post : list (list ttree * (A -> bool))) p m a : (forall e, In e pre -> print (fst e) <> print p) ->
  look_up print (pre ++ (p, m) :: post) (print p) a = m a.
Proof.
  unfold look_up. intros H. induction pre as [|e pre IH]; cbn.
  - now rewrite String.eqb_refl.
  - destruct (String.eqb (print (fst e)) (print p)) eqn:E; [apply String.eqb_eq in E; destruct (H e (or_introl eq_refl) E)|]. apply IH. intros e' He. apply H. now right.
Qed.
End LookUp.

(** ** tests/disjoint_token_pattern.rs *)
Section Disjoint.
Variable print : list ttree -> string.
Hypothesis Happ : tells_apart print disjoint_input.
Notation R := (range_rust print).
Variable gi : grammar_info.
Hypothesis Htt : gi_terminal_type gi = d_terminal_type (disjoint_d print).
Hypothesis Hrules : gi_rules gi = d_rules (disjoint_d print).
Notation tk := (range_tok print).

Definition range_pat (i : nat) : list ttree := nth i (written_patterns disjoint_input) [].
Definition rsym (i : nat) : user_symbol := mk_symbol "A" (PGPattern (print (range_pat i))).

Lemma pats_differ : print (range_pat 0) <> print (range_pat 1).
Proof. intros H. apply Happ in H; [discriminate|in_list|in_list]. Qed.

Lemma first_matches f : sym_matches R gi (rsym 0) (tk f) = (fst f <? 10)%N.
Proof. unfold sym_matches. rewrite Htt. cbn -[look_up range_patterns N.ltb]. exact (look_up_at print [] _ (range_pat 0) _ f (fun e H => match H with end)). Qed.
Lemma second_matches f : sym_matches R gi (rsym 1) (tk f) = ((5 <=? fst f)%N && (fst f <? 12)%N && (snd f =? 100)%N)%bool.
Proof.
  unfold sym_matches. rewrite Htt. cbn -[look_up range_patterns N.ltb N.leb N.eqb]. refine (look_up_at print (firstn 1 range_patterns) [] (range_pat 1) (fun f => (5 <=? fst f)%N && (fst f <? 12)%N && (snd f =? 100)%N)%bool f _).
  intros e [<-|[]]. exact pats_differ.
Qed.

Lemma first_iff f : sym_matches R gi (rsym 0) (tk f) = true <-> first_pattern f.
Proof. rewrite first_matches. unfold first_pattern. apply N.ltb_lt. Qed.
Lemma second_iff f : sym_matches R gi (rsym 1) (tk f) = true <-> second_pattern f.
Proof. rewrite second_matches. unfold second_pattern. rewrite !andb_true_iff, N.leb_le, N.ltb_lt, N.eqb_eq. reflexivity. Qed.

Lemma range_language w : language (source (gi_rules gi)) w <-> w = [rsym 0] \/ w = [rsym 1].
Proof.
  rewrite Hrules. split.
  - intros (t & r0 & ts & Hr & D & _). cbn in Hr. injection Hr as Hr. subst r0. cbn in D.
    inversion D as [| | |i r ts1 w1 ns w2 ts2 Hi D1 D2 Hs Hw]; clear D. inversion D2; subst w2 ts2 ns.
    destruct i as [|[|[|i]]]; cbn in Hi; [| | |destruct i; discriminate].
    + injection Hi as Hi. rewrite <- Hi in Hs. discriminate.
    + injection Hi as Hi. rewrite <- Hi in D1. cbn in D1. inversion D1 as [|a ns w3 t3 D3| |]; subst. inversion D3; subst. left. reflexivity.
    + injection Hi as Hi. rewrite <- Hi in D1. cbn in D1. inversion D1 as [|a ns w3 t3 D3| |]; subst. inversion D3; subst. right. reflexivity.
  - assert (H : forall i s, nth_error (source (d_rules (disjoint_d print))) i = Some (mk_rule "ambiguous" [Terminal (Token s)]) -> language (source (d_rules (disjoint_d print))) [s]).
    { intros i s Hi. eexists. eexists _, _. split; [reflexivity|]. split; [|reflexivity]. cbn [rhs to_lr_production_rule map to_lr_node pr_nodes].
      exact (derives_production _ i _ [Leaf s] [s] [] [] [] Hi (derives_token _ s [] [] [] (derives_nil _)) (derives_nil _)). }
    intros [E|E]; rewrite E; [apply (H 1)|apply (H 2)]; reflexivity.
Qed.

Lemma range_begins us : begin_sentence gi us <-> us = [] \/ us = [rsym 0] \/ us = [rsym 1].
Proof.
  split.
  - intros (vs & H). apply range_language in H. destruct us as [|u us]; [now left|right].
    destruct H as [H|H]; injection H as -> H; apply app_eq_nil in H; destruct H as (-> & _); auto.
  - intros [->|[->| ->]]; [exists [rsym 0]|exists []|exists []]; apply range_language; auto.
Qed.

Lemma range_terminal s : terminal_in (gi_rules gi) s -> s = rsym 0 \/ s = rsym 1.
Proof.
  rewrite Hrules. intros (r & Hr & Hs). cbn in Hr. destruct Hr as [<-|[<-|[<-|[]]]]; cbn in Hs.
  - destruct Hs as [Hs|[]]. discriminate.
  - destruct Hs as [Hs|[]]. injection Hs as <-. now left.
  - destruct Hs as [Hs|[]]. injection Hs as <-. now right.
Qed.

Lemma range_both k s s' : s <> s' -> terminal_in (gi_rules gi) s -> terminal_in (gi_rules gi) s' -> sym_matches R gi s (tk k) = true -> sym_matches R gi s' (tk k) = true -> both_patterns k.
Proof.
  intros Hne Hs Hs' M M'. apply range_terminal in Hs, Hs'. destruct Hs as [->| ->], Hs' as [->| ->]; try congruence; split; (apply first_iff || apply second_iff); assumption.
Qed.

Lemma range_eval d v : (exists r ts, d = Node 0 ts /\ nth_error (source (gi_rules gi)) 0 = Some r) -> snd (Values.eval R gi d) = inl v -> v = RUnit.
Proof.
  intros (r & ts & -> & _). cbn [Values.eval]. destruct (in_order R (map (Values.eval R gi) ts)) as [log [vs|[]]]. cbn [snd].
  unfold rule_value. rewrite Hrules. cbn. intros H. now injection H as <-.
Qed.

Lemma range_cause {bm : BuildMode} {SErr} (into : SErr -> UErr R) ds next err : error_cause R gi into ds next err ->
  (exists o, next = option_map inl o /\ err = ParseError R o) \/
  (exists k, next = Some (inl k) /\ err = OverlappingTokenMatchers R k /\ debug_assertions = true /\ forall f, k = tk f -> both_patterns f).
Proof.
  intros [o _|k s s' ty _ Hdb _ Hne Ts Ts' M M'|e _|o ds' i cs vs e _ _ _ _].
  - left. eauto.
  - right. exists k. repeat split; auto; subst k; eapply range_both; eauto.
  - destruct (into e).
  - destruct e.
Qed.

(** What an explanation says. *)
Lemma range_explained {bm : BuildMode} {SErr} (into : SErr -> Empty_set) fs ds r : explains R gi into (of_list (map tk fs)) ds r ->
  match fs with
  | [] => r = inr (ParseError R None)
  | f :: fs' =>
      (r = inr (OverlappingTokenMatchers R (tk f)) /\ both_patterns f /\ debug_assertions = true) \/
      (r = inr (ParseError R (Some (tk f))) /\ ~ some_pattern f) \/
      (some_pattern f /\ ~ (both_patterns f /\ debug_assertions = true) /\
       r = match fs' with [] => inl RUnit | f' :: _ => inr (ParseError R (Some (tk f'))) end)
  end.
Proof.
  intros (Hw & Hs & Hb & Hd & Hr). apply range_begins in Hb.
  assert (Hty : exists ty, gi_terminal_type gi = TTEnum ty) by (rewrite Htt; eexists; reflexivity).
  destruct Hb as [Hb|Hb].
  - assert (Hl : flat_map leaves ds = []) by (unfold Overlaps.reading in Hb; destruct (flat_map leaves ds); [reflexivity|discriminate]).
    unfold tokens_of in Hr. rewrite Hl in Hr. rewrite Hb in Hr. cbn [map List.length] in Hr. destruct fs as [|f fs'].
    + cbn in Hr. destruct r as [v|err].
      * destruct Hr as (_ & d & Hds & (_ & _ & Hp) & _). exfalso. subst ds. cbn in Hl. rewrite app_nil_r in Hl. rewrite Hl in Hp.
        assert (H : language (source (gi_rules gi)) []) by (eexists; exact Hp). apply range_language in H. destruct H; discriminate.
      * destruct Hr as (Hc & _). apply range_cause in Hc. destruct Hc as [(o & Ho & ->)|(k & Hk & _)]; [|discriminate]. destruct o; [discriminate|]. reflexivity.
    + cbn in Hr. destruct r as [v|err]; [destruct Hr as (Hr & _); discriminate|]. destruct Hr as (Hc & Hn).
      apply range_cause in Hc. destruct Hc as [(o & Ho & ->)|(k & Hk & -> & Hdb & Hf)].
      * right. left. destruct o as [k|]; [|discriminate]. injection Ho as <-. split; [reflexivity|]. specialize (Hn _ eq_refl). cbn in Hn.
        intros [H|H]; [apply first_iff in H; apply (Hn _ H)|apply second_iff in H; apply (Hn _ H)]; apply range_begins; auto.
      * left. injection Hk as <-. auto.
  - assert (Hl : exists i k, (i = 0 \/ i = 1) /\ flat_map leaves ds = [(rsym i, k)] /\ Overlaps.reading R ds = [rsym i]).
    { unfold Overlaps.reading in *. destruct (flat_map leaves ds) as [|[s k] [|y l]]; destruct Hb as [Hb|Hb]; try discriminate; injection Hb as ->.
      - exists 0, k. auto.
      - exists 1, k. auto. }
    destruct Hl as (i & k & Hi & Hl & Hrd). clear Hb. unfold tokens_of in Hr, Hs. rewrite Hl in *. rewrite Hrd in *. cbn [map List.length snd] in *.
    assert (Hk : of_list (S := SErr) (map tk fs) 0 = Some (inl k)) by (apply Hs; reflexivity).
    destruct fs as [|f fs']; [discriminate|]. cbn in Hk. injection Hk as <-. right. right.
    assert (Hm : sym_matches R gi (rsym i) (tk f) = true).
    { assert (Hin : In (rsym i, tk f) (flat_map leaves ds)) by (rewrite Hl; now left). apply in_flat_map in Hin. destruct Hin as (d & H1 & H2).
      rewrite Forall_forall in Hw. destruct (Hw d H1) as (H3 & _). now apply H3. }
    assert (Hsome : some_pattern f) by (destruct Hi as [->| ->]; [left; now apply first_iff|right; now apply second_iff]).
    split; [exact Hsome|]. split.
    { intros ((B1 & B2) & Hdb). destruct (Hd (conj Hdb Hty)) as (Hdec & _). apply (Hdec [] (rsym i) (tk f) [] eq_refl).
      exists (rsym 0), (rsym 1). split; [intros E; injection E as E; exact (pats_differ E)|]. split; [now apply first_iff|]. split; [now apply second_iff|].
      split; apply range_begins; auto. }
    destruct r as [v|err].
    + destruct Hr as (Hn & d & Hds & (_ & _ & r0 & ts & Hr0 & _ & Ht) & Hv). destruct fs' as [|f' fs']; [|discriminate]. f_equal.
      apply (range_eval d v); [|exact Hv]. destruct d as [[s0 k0]|j cs]; [discriminate|]. injection Ht as -> _. eauto.
    + destruct Hr as (Hc & Hn). apply range_cause in Hc. destruct Hc as [(o & Ho & ->)|(k & Hk & -> & Hdb & _)].
      * specialize (Hn _ eq_refl). destruct fs' as [|f' fs'], o as [k|]; try discriminate.
        -- exfalso. apply Hn. apply range_language. destruct Hi as [->| ->]; auto.
        -- cbn in Ho. injection Ho as <-. reflexivity.
      * exfalso. destruct (Hd (conj Hdb Hty)) as (_ & Hdk). destruct (proj1 (Hdk k) eq_refl) as (_ & s & s' & _ & _ & _ & H & _).
        apply range_begins in H. destruct H as [H|[H|H]]; discriminate.
Qed.
End Disjoint.

Theorem disjoint_runs (bm : BuildMode) print em : tells_apart print disjoint_input -> item_printed bm print disjoint_input em ->
  exists n, forall (bmr : BuildMode) (E SErr : Type) (into : SErr -> Empty_set) fs fuel, n * S (List.length fs) <= fuel ->
  let m := run_emitted (bm := bmr) (range_rust print) into (of_list (map (range_tok print) fs)) (read_body []) fuel em : Rust.result (E := E) (range_rust print) in
  match fs with
  | [] => gives_error (range_rust print) m (ParseError (range_rust print) None)
  | f :: fs' =>
      (~ some_pattern f -> gives_error (range_rust print) m (ParseError (range_rust print) (Some (range_tok print f)))) /\
      (both_patterns f -> debug_assertions (BuildMode := bmr) = true -> gives_error (range_rust print) m (OverlappingTokenMatchers (range_rust print) (range_tok print f))) /\
      (some_pattern f -> ~ both_patterns f \/ debug_assertions (BuildMode := bmr) = false ->
        match fs' with
        | [] => gives_value (range_rust print) m RUnit
        | f' :: _ => gives_error (range_rust print) m (ParseError (range_rust print) (Some (range_tok print f')))
        end)
  end.
Proof.
  intros Happ Hem.
  destruct (printed_explained print disjoint_input (disjoint_d print) [] ltac:(vm_compute; reflexivity) ltac:(vm_compute; reflexivity) ltac:(vm_compute; reflexivity) ltac:(vm_compute; reflexivity) ltac:(vm_compute; reflexivity)
    (disjoint_productive print Happ) (range_rust print) [] ltac:(reflexivity) ltac:(reflexivity) bm em Hem) as (gi & C & G1 & G2 & HC).
  exists C. intros bmr E SErr into fs fuel Hf m.
  destruct (HC bmr E SErr into (map (range_tok print) fs) fuel) as (r & ds & He & Hr); [now rewrite map_length|]. apply (range_explained print Happ gi G1 G2) in He.
  fold m in Hr. destruct fs as [|f fs']; [subst r; exact Hr|].
  destruct He as [(-> & Hb & Hd)|[(-> & Hn)|(Hs & Hn & ->)]]; cbn [gives] in Hr.
  - split; [intros H; exfalso; apply H; left; apply Hb|]. split; [auto|]. intros _ [H|H]; [contradiction|congruence].
  - split; [auto|]. split; [intros (H & _); exfalso; apply Hn; now left|]. intros H. contradiction.
  - split; [contradiction|]. split; [intros H1 H2; exfalso; apply Hn; auto|]. intros _ _. destruct fs'; exact Hr.
Qed.
