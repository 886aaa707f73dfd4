(** The example program, and the language of its grammar. *)
From Coq Require Import Arith Bool String Ascii List Lia.
From Verif Require Import Base.Prelude Spec.Grammar Spec.LR1 Spec.Observers Spec.TableText Spec.GrammarText Model.Error.
From Verif Require Import Model.Vocabulary Model.GrammarStr Model.IndexedGrammar Model.LRTable Model.ParseSimulator Model.TableText Model.PrintTable.
From Verif Require Import Proofs.Fuel Proofs.Machine Proofs.ParserFinal Proofs.Refutations Proofs.RecognitionFinal Proofs.LR1Final Proofs.TableText Proofs.GrammarText.
From Verif Require Import Spec.PrintTable.
Import ListNotations.
Open Scope list_scope.

#[local] Existing Instance EqDec_char.

Notation nt c := (Production [c%char]).
Notation tk c := (Terminal (Token c%char)).
Definition calc : grammar ascii text :=
  [mk_rule ["T"%char] [nt "S"]; mk_rule ["S"%char] [nt "S"; tk "p"; nt "P"]; mk_rule ["S"%char] [nt "P"];
   mk_rule ["P"%char] [nt "P"; tk "x"; nt "V"]; mk_rule ["P"%char] [nt "V"];
   mk_rule ["V"%char] [tk "a"]; mk_rule ["V"%char] [tk "b"]; mk_rule ["V"%char] [tk "c"]].

Lemma text_read : from_grammar_str example_text = Ok calc.
Proof. vm_compute. reflexivity. Qed.

(** ** Printing *)
Section Print.
Context {bm : BuildMode}.

Lemma print_ok fuel s g p : spells s g -> parser_new fuel g = Ok p ->
  exists shown, print_table fuel s = Ok (shown ++ String newline "")%string /\
    shows_table (plr_table p) (vocab_size (ivocab (pgrammar p))) (labels_count (pgrammar p)) shown /\ aligned shown.
Proof.
  intros Hs Hp. apply from_str_ok in Hs. unfold parser_new in Hp.
  destruct (indexed_build fuel g) as [ig| | |] eqn:Hi; try discriminate. cbn [bind] in Hp.
  destruct (table_build ig fuel) as [t| | |] eqn:Ht; try discriminate. injection Hp as <-.
  destruct (table_text_ok g ig t fuel fuel Empty_set Hi Ht) as (shown & E & H1 & H2).
  exists shown. split; [|split; assumption]. unfold print_table. rewrite Hs. cbn [unwrap_result bind]. rewrite Hi. cbn [unwrap_result bind]. rewrite Ht. cbn [unwrap_result bind]. rewrite E. reflexivity.
Qed.

Lemma print_only fuel s out : print_table fuel s = Ok out -> exists g p, spells s g /\ parser_new fuel g = Ok p.
Proof.
  unfold print_table. destruct (from_grammar_str s) as [g| | |] eqn:Hs; try discriminate. cbn [unwrap_result bind].
  destruct (indexed_build fuel g) as [ig| | |] eqn:Hi; try discriminate. cbn [unwrap_result bind].
  destruct (table_build ig fuel) as [t| | |] eqn:Ht; try discriminate. intros _. exists g. eexists. split; [now apply from_str_ok|].
  unfold parser_new. rewrite Hi. cbn [bind]. rewrite Ht. reflexivity.
Qed.

Lemma calc_built : exists p, forall fuel, 50 <= fuel -> parser_new fuel calc = Ok p.
Proof.
  assert (H : exists p, parser_new 50 calc = Ok p).
  { assert (B : match parser_new 50 calc with Ok _ => true | _ => false end = true) by (destruct bm; vm_compute; reflexivity).
    destruct (parser_new 50 calc) as [p| | |]; try discriminate. eauto. }
  destruct H as (p & Hp). exists p. intros fuel Hf. eapply le_ok; [|exact Hp]. now apply parser_new_le.
Qed.

Lemma main_prints : exists p shown, parser_new 50 calc = Ok p /\ (forall fuel, 50 <= fuel -> main fuel = Ok (shown ++ String newline "")%string) /\
  shows_table (plr_table p) (vocab_size (ivocab (pgrammar p))) (labels_count (pgrammar p)) shown /\ aligned shown.
Proof.
  destruct calc_built as (p & Hp). assert (Hs : spells example_text calc) by (apply from_str_ok, text_read).
  destruct (print_ok 50 _ _ p Hs (Hp 50 (le_n _))) as (shown & E & H1 & H2). exists p, shown. split; [apply Hp, le_n|]. split; [|split; assumption].
  intros fuel Hf. destruct (print_ok fuel _ _ p Hs (Hp fuel Hf)) as (shown' & E' & _).
  unfold main. rewrite E'. unfold print_table in E, E'. rewrite text_read in E, E'. cbn [unwrap_result bind] in E, E'.
  pose proof (Hp 50 (le_n _)) as P1. pose proof (Hp fuel Hf) as P2. unfold parser_new in P1, P2.
  destruct (indexed_build 50 calc) as [ig| | |]; try discriminate. destruct (indexed_build fuel calc) as [ig'| | |]; try discriminate.
  cbn [unwrap_result bind] in *. destruct (table_build ig 50) as [t| | |]; try discriminate. destruct (table_build ig' fuel) as [t'| | |]; try discriminate.
  injection P1 as <-. injection P2 as -> ->. cbn [unwrap_result bind] in *. congruence.
Qed.
End Print.

(** ** Values *)
Section Value.
Context {A : Type} (plus times : A -> A -> A) (value : ascii -> A).
Notation continue := (continue plus times value).
Notation tree_value := (tree_value plus times value).
Notation word_value := (word_value plus times value).

(** Rests of calculations; [scan] is [continue] without the last addition. *)
Inductive rest (ops : list ascii) : list ascii -> Prop :=
| rest_nil : rest ops []
| rest_more o c w : In o ops -> letter c -> rest ops w -> rest ops (o :: c :: w).
Fixpoint scan (st : option A * A) (w : list ascii) : option A * A :=
  match w with
  | o :: c :: w' => scan (if ascii_dec o "p" then (Some (add plus (fst st) (snd st)), value c) else (fst st, times (snd st) (value c))) w'
  | _ => st
  end.
Lemma rest_app ops u w : rest ops u -> rest ops w -> rest ops (u ++ w).
Proof. induction 1; intros; cbn; auto; constructor; auto. Qed.
Lemma scan_app ops u w st : rest ops u -> scan st (u ++ w) = scan (scan st u) w.
Proof. intros H. revert st. induction H; intros; cbn; auto. Qed.
Lemma continue_scan w s a : rest ["p"; "x"]%char w -> continue s a w = Some (add plus (fst (scan (s, a) w)) (snd (scan (s, a) w))).
Proof.
  intros H. revert s a. induction H as [|o c w Ho Hc H IH]; intros; [reflexivity|].
  destruct Ho as [<-|[<-|[]]]; cbn; rewrite IH; reflexivity.
Qed.
Lemma rest_weaken w : rest ["x"%char] w -> rest ["p"; "x"]%char w.
Proof. induction 1 as [|o c w Ho]; constructor; auto. destruct Ho as [<-|[]]. right. now left. Qed.
Lemma rest_calculation c w : letter c -> rest ["p"; "x"]%char w -> calculation (c :: w).
Proof. intros Hc H. revert c Hc. induction H as [|o c' w Ho Hc' H IH]; intros; [now constructor|]. apply more; auto. Qed.
Lemma calculation_rest w : calculation w -> exists c u, w = c :: u /\ letter c /\ rest ["p"; "x"]%char u.
Proof.
  induction 1 as [c Hc|c o w Hc Ho H (c' & u & -> & Hc' & Hu)]; [exists c, []|exists c, (o :: c' :: u)]; repeat split; auto; constructor; auto.
Qed.

Definition sums (w : list ascii) (a : A) : Prop :=
  exists c u, w = c :: u /\ letter c /\ rest ["p"; "x"]%char u /\ add plus (fst (scan (None, value c) u)) (snd (scan (None, value c) u)) = a.
Definition prods (w : list ascii) (a : A) : Prop :=
  exists c u, w = c :: u /\ letter c /\ rest ["x"%char] u /\ forall s, scan (s, value c) u = (s, a).
Lemma prods_sums w a : prods w a -> sums w a.
Proof. intros (c & u & -> & Hc & Hu & E). exists c, u. rewrite E. repeat split; auto using rest_weaken. Qed.
Lemma sums_more u w a b : sums u a -> prods w b -> sums (u ++ "p"%char :: w) (plus a b).
Proof.
  intros (c & u' & -> & Hc & Hu & E) (c2 & w' & -> & Hc2 & Hw & E2). exists c, (u' ++ "p"%char :: c2 :: w'). split; [reflexivity|]. split; [auto|]. split.
  - apply rest_app; auto. constructor; auto using rest_weaken. now left.
  - rewrite (scan_app _ _ _ _ Hu). cbn. rewrite E2. cbn. now rewrite E.
Qed.
Lemma prods_more u c a : prods u a -> letter c -> prods (u ++ ["x"; c]%char) (times a (value c)).
Proof.
  intros (c1 & u' & -> & Hc & Hu & E) Hc2. exists c1, (u' ++ ["x"; c]%char). split; [reflexivity|]. split; [auto|]. split.
  - apply rest_app; auto. constructor; [now left|auto|constructor].
  - intros s. rewrite (scan_app _ _ _ _ Hu), E. reflexivity.
Qed.

Definition means (l : text) (w : list ascii) (t : tree ascii) : Prop :=
  if eq_dec l ["V"%char] then exists c, w = [c] /\ letter c /\ tree_value t = Some (value c)
  else if eq_dec l ["P"%char] then exists a, prods w a /\ tree_value t = Some a
  else exists a, sums w a /\ tree_value t = Some a.
Fixpoint mean (ns : list (node ascii text)) (w : list ascii) (ts : list (tree ascii)) : Prop :=
  match ns with
  | [] => w = [] /\ ts = []
  | Terminal (Token c) :: ns' => exists w' ts', w = c :: w' /\ ts = Leaf c :: ts' /\ mean ns' w' ts'
  | Terminal _ :: ns' => mean ns' w ts
  | Production l :: ns' => exists w1 w2 t ts', w = w1 ++ w2 /\ ts = t :: ts' /\ means l w1 t /\ mean ns' w2 ts'
  end.

Lemma value_one i t : tree_value (Node i [t]) = tree_value t.
Proof. reflexivity. Qed.
Lemma value_op i t1 o t2 a b : tree_value t1 = Some a -> tree_value t2 = Some b ->
  tree_value (Node i [t1; Leaf o; t2]) = if ascii_dec o "p" then Some (plus a b) else if ascii_dec o "x" then Some (times a b) else None.
Proof. intros E1 E2. cbn. now rewrite E1, E2. Qed.

Lemma derives_mean ns w ts : derives calc ns w ts -> mean ns w ts.
Proof.
  induction 1 as [|t ns w ts D IH|ns w ts D IH|i r ts1 w1 ns w2 ts2 Hr D1 IH1 D2 IH2]; cbn [mean]; auto; [eauto 6|].
  exists w1, w2, (Node i ts1), ts2. split; [reflexivity|]. split; [reflexivity|]. split; [|exact IH2].
  destruct i as [|[|[|[|[|[|[|[|i]]]]]]]]; [injection Hr as <-; cbn [rhs symbol mean] in *; clear D1 D2 IH2..|destruct i; discriminate].
  - destruct IH1 as (u & u' & t & ts' & -> & -> & Hm & -> & ->). rewrite app_nil_r. exact Hm.
  - destruct IH1 as (u & u' & t & ts' & -> & -> & (a & Ha & Ea) & v & ts'' & -> & -> & u2 & u2' & t2 & ts3 & -> & -> & (b & Hb & Eb) & -> & ->).
    rewrite app_nil_r. exists (plus a b). split; [now apply sums_more|]. now rewrite (value_op _ _ _ _ a b).
  - destruct IH1 as (u & u' & t & ts' & -> & -> & (a & Ha & Ea) & -> & ->). rewrite app_nil_r. exists a. split; [now apply prods_sums|exact Ea].
  - destruct IH1 as (u & u' & t & ts' & -> & -> & (a & Ha & Ea) & v & ts'' & -> & -> & u2 & u2' & t2 & ts3 & -> & -> & (c & -> & Hc & Eb) & -> & ->).
    exists (times a (value c)). split; [now apply prods_more|]. now rewrite (value_op _ _ _ _ a (value c)).
  - destruct IH1 as (u & u' & t & ts' & -> & -> & (c & -> & Hc & Ec) & -> & ->). exists (value c). split; [|exact Ec].
    exists c, []. repeat split; auto. constructor.
  - destruct IH1 as (u & ts' & -> & -> & -> & ->). exists "a"%char. repeat split. now left.
  - destruct IH1 as (u & ts' & -> & -> & -> & ->). exists "b"%char. repeat split. right. now left.
  - destruct IH1 as (u & ts' & -> & -> & -> & ->). exists "c"%char. repeat split. right. right. now left.
Qed.

Lemma calc_sums w t : parses calc w t -> exists a, sums w a /\ tree_value t = Some a.
Proof.
  intros (r & ts & Hr & D & ->). injection Hr as <-. apply derives_mean in D. destruct D as (u & u' & t & ts' & -> & -> & (a & Ha & Ea) & -> & ->).
  rewrite app_nil_r. exists a. auto.
Qed.
Lemma calc_value w t : parses calc w t -> exists a, tree_value t = Some a /\ word_value w = Some a.
Proof.
  intros H. destruct (calc_sums _ _ H) as (a & (c & u & -> & Hc & Hu & E) & Et). exists a. split; [exact Et|]. cbn. rewrite continue_scan by auto. now rewrite E.
Qed.
End Value.

(** ** The language *)
Lemma calc_calculation w : language calc w -> calculation w.
Proof.
  intros (t & H). destruct (calc_sums (fun a b : unit => a) (fun a b => a) (fun _ => tt) w t H) as (a & (c & u & -> & Hc & Hu & _) & _). now apply rest_calculation.
Qed.

Definition from (ns : list (node ascii text)) (w : list ascii) : Prop := exists ts, derives calc ns w ts.
Lemma from_rule i r w : nth_error calc i = Some r -> from (rhs r) w -> from [Production (symbol r)] w.
Proof. intros Hr (ts & D). eexists. rewrite <- (app_nil_r w). eapply derives_production; eauto. constructor. Qed.
Lemma from_app ns1 ns2 w1 w2 : from ns1 w1 -> from ns2 w2 -> from (ns1 ++ ns2) (w1 ++ w2).
Proof. intros (t1 & D1) (t2 & D2). eexists. apply derives_app; eauto. Qed.
Lemma from_token c : from [Terminal (Token c)] [c].
Proof. eexists. constructor. constructor. Qed.
Lemma from_letter c : letter c -> from [nt "V"] [c].
Proof.
  intros [<-|[<-|[<-|[]]]]; [apply (from_rule 5 _ _ eq_refl)|apply (from_rule 6 _ _ eq_refl)|apply (from_rule 7 _ _ eq_refl)]; apply from_token.
Qed.
(** A sum ends with a product. *)
Definition sum_of (w : list ascii) : Prop :=
  exists q, from [nt "P"] q /\ (w = q \/ exists s, from [nt "S"] s /\ w = s ++ "p"%char :: q).
Lemma sum_from w : sum_of w -> from [nt "S"] w.
Proof.
  intros (q & Hq & [->|(s & Hs & ->)]); [apply (from_rule 2 _ _ eq_refl); exact Hq|].
  apply (from_rule 1 _ _ eq_refl). apply (from_app [nt "S"] [tk "p"; nt "P"] s ("p"%char :: q)); auto.
  apply (from_app [tk "p"] [nt "P"] ["p"%char] q); auto using from_token.
Qed.
Lemma from_product_letter c : letter c -> from [nt "P"] [c].
Proof. intros Hc. apply (from_rule 4 _ _ eq_refl). now apply from_letter. Qed.
Lemma sum_rest u : rest ["p"; "x"]%char u -> forall w, sum_of w -> sum_of (w ++ u).
Proof.
  induction 1 as [|o c u Ho Hc Hu IH]; intros w Hw; [now rewrite app_nil_r|].
  change (o :: c :: u) with ([o; c] ++ u). rewrite app_assoc. apply IH. destruct Ho as [<-|[<-|[]]].
  - exists [c]. split; [now apply from_product_letter|]. right. exists w. split; [now apply sum_from|reflexivity].
  - destruct Hw as (q & Hq & Hw). exists (q ++ ["x"; c]%char). split.
    + apply (from_rule 3 _ _ eq_refl). apply (from_app [nt "P"] [tk "x"; nt "V"] q ["x"; c]%char); auto.
      apply (from_app [tk "x"] [nt "V"] ["x"%char] [c]); auto using from_token, from_letter.
    + destruct Hw as [->|(s & Hs & ->)]; [now left|]. right. exists s. split; auto. now rewrite <- app_assoc.
Qed.
Lemma calculation_calc w : calculation w -> language calc w.
Proof.
  intros H. destruct (calculation_rest w H) as (c & u & -> & Hc & Hu).
  assert (Hs : sum_of ([c] ++ u)) by (apply sum_rest; auto; exists [c]; split; [now apply from_product_letter|now left]).
  apply sum_from in Hs as (ts & D). exists (Node 0 ts). eexists _, _. split; [reflexivity|]. split; [exact D|reflexivity].
Qed.

Lemma calc_language w : language calc w <-> calculation w.
Proof. split; [apply calc_calculation|apply calculation_calc]. Qed.

Lemma calc_parser (bm : BuildMode) (E : Type) fuel p w : parser_new fuel calc = Ok p ->
  exists N b, (forall fuel', N < fuel' -> parse_stream (E := E) fuel' p w = Ok b) /\ (b = true <-> calculation w).
Proof.
  intros Hp. assert (He : no_eos calc) by (apply no_eos_ok; reflexivity). assert (Ht : eps_trailing calc) by (apply eps_trailing_ok; reflexivity).
  assert (Hf : first_complete calc) by (apply direct_first_complete, (direct_b_ok _ []); vm_compute; reflexivity).
  destruct (recog_total calc fuel p E w He Ht Hp) as ((N & b & Hb) & _). exists N, b. split; [exact Hb|]. rewrite <- calc_language. split.
  - intros ->. apply (recog_sound calc fuel (S N) p E w He Ht Hp). apply Hb. lia.
  - intros Hl. destruct (recog_complete_f E calc fuel p w He Ht Hf Hp Hl) as (N' & H'). specialize (H' (S (N + N')) ltac:(lia)). rewrite Hb in H' by lia. congruence.
Qed.

(** ** For the text of the program *)
Lemma example_spells g : spells example_text g -> g = calc.
Proof. intros H. apply from_str_ok in H. rewrite text_read in H. congruence. Qed.
Lemma main_spelled (bm : BuildMode) : exists g p shown, spells example_text g /\ parser_new 50 g = Ok p /\
  (forall fuel, 50 <= fuel -> main fuel = Ok (shown ++ String newline "")%string) /\
  shows_table (plr_table p) (vocab_size (ivocab (pgrammar p))) (labels_count (pgrammar p)) shown /\ aligned shown.
Proof. destruct main_prints as (p & shown & H). exists calc, p, shown. split; [apply from_str_ok, text_read|exact H]. Qed.
Lemma example_language (bm : BuildMode) (E : Type) fuel g p w : spells example_text g -> parser_new fuel g = Ok p ->
  exists N b, (forall fuel', N < fuel' -> parse_stream (E := E) fuel' p w = Ok b) /\ (b = true <-> calculation w).
Proof. intros H. rewrite (example_spells g H). apply calc_parser. Qed.
Lemma example_values (A : Type) (plus times : A -> A -> A) (value : ascii -> A) g w t : spells example_text g -> parses g w t ->
  exists a, tree_value plus times value t = Some a /\ word_value plus times value w = Some a.
Proof. intros H. rewrite (example_spells g H). apply calc_value. Qed.

Lemma example_case : main (bm := true) 50 = main (bm := false) 50 /\
  (exists s, main (bm := true) 50 = Ok s /\ List.length (Spec.TableText.lines s) = 13) /\
  calculation (list_ascii_of_string "bxapcxbpa") /\
  (word_value (fun a b => "(" ++ a ++ "+" ++ b ++ ")") (fun a b => "(" ++ a ++ "*" ++ b ++ ")") (fun c => String c "") (list_ascii_of_string "bxapcxbpa")
    = Some "(((b*a)+(c*b))+a)")%string /\
  ~ calculation (list_ascii_of_string "bxpa").
Proof.
  split; [vm_compute; reflexivity|]. split; [eexists; split; vm_compute; reflexivity|]. split.
  { cbn. repeat first [apply one|apply more]; unfold letter, operator; cbn; auto 6. }
  split; [vm_compute; reflexivity|].
  intros H. destruct (calculation_rest _ H) as (c & u & E & _ & Hu). injection E as <- <-.
  remember ["x"; "p"; "a"]%char as u eqn:Eu. destruct Hu as [|o c u Ho Hc Hu]; [discriminate|]. injection Eu as -> -> ->.
  destruct Hc as [E|[E|[E|[]]]]; discriminate E.
Qed.

(** ** Other texts *)
Lemma print_ends (bm : BuildMode) s : exists N, forall fuel, N < fuel -> print_table fuel s <> Diverge.
Proof.
  destruct (from_grammar_str s) as [g|e|why|] eqn:Hs; try (exists 0; intros fuel _; unfold print_table; rewrite Hs; discriminate).
  - destruct (parser_new_terminates g) as (N & HN). exists N. intros fuel Hf. specialize (HN fuel Hf). intros D.
    destruct (parser_new fuel g) as [p|e|why|] eqn:Hp; [|..|congruence].
    + assert (Hsp : spells s g) by now apply from_str_ok. destruct (print_ok fuel s g p Hsp Hp) as (shown & E & _). congruence.
    + unfold print_table in D. unfold parser_new in Hp. rewrite Hs in D. cbn [unwrap_result bind] in D.
      destruct (indexed_build fuel g) as [ig| | |]; try discriminate. cbn [unwrap_result bind] in *. destruct (table_build ig fuel); discriminate.
    + unfold print_table in D. unfold parser_new in Hp. rewrite Hs in D. cbn [unwrap_result bind] in D.
      destruct (indexed_build fuel g) as [ig| | |]; try discriminate. cbn [unwrap_result bind] in *. destruct (table_build ig fuel); discriminate.
  - exfalso. destruct (from_str_total s) as [(g & E)|(e & E)]; congruence.
Qed.

Lemma app_newline_inj (a b : string) c : (a ++ String c "")%string = (b ++ String c "")%string -> a = b.
Proof.
  revert b. induction a as [|x a IH]; intros [|y b] E; cbn in E; auto.
  - injection E as _ E. destruct b; discriminate.
  - injection E as _ E. destruct a; discriminate.
  - injection E as -> E. f_equal. auto.
Qed.
Lemma print_same (bm : BuildMode) fuel fuel' s s' g g' p p' out : spells s g -> parser_new fuel g = Ok p -> spells s' g' -> parser_new fuel' g' = Ok p' ->
  print_table fuel s = Ok out -> print_table fuel' s' = Ok out -> plr_table p = plr_table p'.
Proof.
  intros Hs Hp Hs' Hp' E E'. apply from_str_ok in Hs, Hs'. unfold print_table in E, E'. rewrite Hs in E. rewrite Hs' in E'. cbn [unwrap_result bind] in E, E'.
  unfold parser_new in Hp, Hp'. destruct (indexed_build fuel g) as [ig| | |] eqn:Hi; try discriminate. destruct (indexed_build fuel' g') as [ig'| | |] eqn:Hi'; try discriminate.
  cbn [unwrap_result bind] in *. destruct (table_build ig fuel) as [t| | |] eqn:Ht; try discriminate. destruct (table_build ig' fuel') as [t'| | |] eqn:Ht'; try discriminate.
  injection Hp as <-. injection Hp' as <-. cbn [unwrap_result bind plr_table] in *.
  destruct (table_text t) as [x| | |] eqn:Hx; try discriminate. destruct (table_text t') as [x'| | |] eqn:Hx'; try discriminate.
  cbn [bind] in *. injection E as <-. injection E' as E'. apply app_newline_inj in E'. subst x'.
  eapply (text_determines_table g g' ig ig' t t'); eauto.
Qed.

Lemma example_tree (bm : BuildMode) g w : spells example_text g -> calculation w -> exists t, parses g w t /\ forall t', parses g w t' -> t' = t.
Proof.
  intros H Hw. rewrite (example_spells g H). destruct (calculation_calc w Hw) as (t & Ht). exists t. split; [exact Ht|]. intros t' Ht'.
  destruct calc_built as (p & Hp).
  apply (unambiguous_f calc 50 p w t' t); auto; [apply no_eos_ok; reflexivity|apply eps_trailing_ok; reflexivity|apply direct_first_complete, (direct_b_ok _ []); vm_compute; reflexivity].
Qed.

Lemma example_texts (bm : BuildMode) :
  (exists out, print_table 50 (list_ascii_of_string "S -> a b") = Ok out /\ print_table 50 (list_ascii_of_string "R ->  c d ") = Ok out) /\
  print_table 50 (list_ascii_of_string "S -> a b") <> print_table 50 (list_ascii_of_string "S -> a a") /\
  (exists why, print_table 50 (list_ascii_of_string "S = a") = Panic why) /\
  exists why, print_table 50 (list_ascii_of_string "S -> A" ++ newline :: list_ascii_of_string "A -> A A" ++ newline :: list_ascii_of_string "A -> a")%list = Panic why.
Proof.
  destruct bm; (split; [eexists; split; vm_compute; reflexivity|]); (split; [vm_compute; discriminate|]); split; eexists; vm_compute; reflexivity.
Qed.
