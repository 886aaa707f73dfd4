(** [from_grammar_str] reads exactly the texts that spell a grammar. *)
From Coq Require Import Arith Bool Ascii List Lia.
From Verif Require Import Base.Prelude Spec.Grammar Model.GrammarStr Spec.GrammarText.
Import ListNotations.

(** ** Characters *)

Lemma whitespace_ok c : is_whitespace c = true <-> space c.
Proof.
  unfold is_whitespace, space, code_in. rewrite orb_true_iff, andb_true_iff, !Nat.leb_le, Nat.eqb_eq.
  split; intros [H|H]; auto; right.
  - rewrite <- (ascii_nat_embedding c), H. reflexivity.
  - subst. reflexivity.
Qed.

Lemma whitespace_no c : is_whitespace c = false <-> ~ space c.
Proof. rewrite <- whitespace_ok. destruct (is_whitespace c); split; congruence. Qed.

Lemma separator_ok c : is_ascii_whitespace c = true <-> separator c.
Proof.
  unfold is_ascii_whitespace, separator. rewrite andb_true_iff, whitespace_ok, negb_true_iff, Nat.eqb_neq. tauto.
Qed.

Lemma separator_no c : is_ascii_whitespace c = false <-> ~ separator c.
Proof. rewrite <- separator_ok. destruct (is_ascii_whitespace c); split; congruence. Qed.

Lemma upper_ok c : is_ascii_uppercase c = true <-> upper c.
Proof. unfold is_ascii_uppercase, upper, code_in. rewrite andb_true_iff, !Nat.leb_le. tauto. Qed.

Lemma uppers_ok l : forallb is_ascii_uppercase l = true <-> Forall upper l.
Proof.
  induction l as [|c l IH]; simpl; [split; auto|]. rewrite andb_true_iff, IH, upper_ok. split.
  - intros []. auto.
  - intro H. inversion H; auto.
Qed.

Lemma uppers_no l : forallb is_ascii_uppercase l = false <-> ~ Forall upper l.
Proof. rewrite <- uppers_ok. destruct forallb; split; congruence. Qed.

Lemma upper_not_space c : upper c -> ~ space c.
Proof. unfold upper, space, code_in. intros H [K| ->]; [lia|]. cbv in H. lia. Qed.

Lemma not_dash_space c : space c -> c <> "-"%char.
Proof. unfold space, code_in. intros [H|H] ->; [cbv in H; lia|discriminate]. Qed.

Lemma not_dash_upper c : upper c -> c <> "-"%char.
Proof. unfold upper, code_in. intros H ->. cbv in H. lia. Qed.

(** ** Trimming *)

Lemma trim_start_spec s : exists s1, s = s1 ++ trim_start s /\ Forall space s1 /\
  (forall c s', trim_start s = c :: s' -> ~ space c).
Proof.
  induction s as [|c s IH]; simpl.
  - exists []. repeat split; auto. discriminate.
  - destruct (is_whitespace c) eqn:W.
    + destruct IH as (s1 & E & F & N). exists (c :: s1). simpl. rewrite <- E. repeat split; auto.
      constructor; auto. apply whitespace_ok, W.
    + exists []. repeat split; auto. intros c' s' E. injection E as -> ->. apply whitespace_no, W.
Qed.

Lemma trim_start_app s1 s : Forall space s1 -> trim_start (s1 ++ s) = trim_start s.
Proof.
  induction 1 as [|c s1 Hc _ IH]; simpl; auto. apply whitespace_ok in Hc. rewrite Hc. exact IH.
Qed.

Lemma trim_start_id s : (forall c s', s = c :: s' -> ~ space c) -> trim_start s = s.
Proof.
  destruct s as [|c s]; simpl; auto. intro H. specialize (H c s eq_refl). apply whitespace_no in H. now rewrite H.
Qed.

Lemma Forall_rev' {A} (P : A -> Prop) l : Forall P l -> Forall P (rev l).
Proof. rewrite !Forall_forall. intros H x Hx. apply H. now apply in_rev. Qed.

Lemma trim_spec s : exists s1 s2, s = s1 ++ trim s ++ s2 /\ Forall space s1 /\ Forall space s2 /\ trimmed (trim s).
Proof.
  unfold trim. destruct (trim_start_spec s) as (s1 & E & F1 & N1). remember (trim_start s) as u eqn:Eu.
  destruct (trim_start_spec (rev u)) as (s2 & E2 & F2 & N2). remember (trim_start (rev u)) as v eqn:Ev.
  assert (U : u = rev v ++ rev s2) by (rewrite <- rev_app_distr, <- E2, rev_involutive; reflexivity).
  exists s1, (rev s2). repeat split; auto.
  - now rewrite <- U.
  - now apply Forall_rev'.
  - intros c s' E'. apply (N1 c (s' ++ rev s2)). rewrite U, E'. reflexivity.
  - intros c s' E'. apply (N2 c (rev s')).
    rewrite <- (rev_involutive v), E', rev_app_distr. reflexivity.
Qed.

Lemma trim_unique s1 t s2 : Forall space s1 -> Forall space s2 -> trimmed t -> trim (s1 ++ t ++ s2) = t.
Proof.
  intros F1 F2 [Nl Nr]. unfold trim. rewrite trim_start_app by auto.
  destruct t as [|c t].
  - simpl. rewrite <- (app_nil_r s2), trim_start_app by auto. reflexivity.
  - rewrite (trim_start_id ((c :: t) ++ s2)).
    + rewrite rev_app_distr, trim_start_app by now apply Forall_rev'.
      rewrite trim_start_id; [apply rev_involutive|].
      intros c' s' E. apply (Nr c' (rev s')). rewrite <- (rev_involutive (c :: t)), E. reflexivity.
    + intros c' s' E. injection E as -> _. apply (Nl c' t eq_refl).
Qed.

Lemma trimmed_upper l : Forall upper l -> trimmed l.
Proof.
  intro F. split; intros c s' ->; apply upper_not_space.
  - now inversion F.
  - apply Forall_app in F as [_ F]. now inversion F.
Qed.

(** ** Lines *)

Lemma lines_from_ok s : line_list s (lines_from [] s) /\
  forall cur, newline_free cur -> cur <> [] -> line_list (rev cur ++ s) (lines_from cur s).
Proof.
  induction s as [|c s [IH0 IH]]; simpl.
  - split; [constructor|]. intros cur N Ne. rewrite app_nil_r. destruct cur as [|c cur]; [congruence|].
    apply lines_last.
    + simpl. intro E. now apply app_eq_nil in E as [_ E].
    + unfold newline_free in *. rewrite <- in_rev. exact N.
  - split.
    + destruct (ascii_dec c newline) as [->|Nc].
      * apply (lines_more [] s); auto.
        -- now intros [].
        -- intros l' E. now destruct l'.
      * apply (IH [c]); [|discriminate]. intros [E|[]]. now apply Nc.
    + intros cur N Ne. destruct (ascii_dec c newline) as [->|Nc].
      * destruct cur as [|c' cur']; [congruence|]. destruct (ascii_dec c' return_char) as [->|Nr].
        -- simpl. rewrite <- app_assoc. apply (lines_more_cr (rev cur') s); auto.
           unfold newline_free in *. rewrite <- in_rev. intro Hi. apply N. now right.
        -- apply lines_more; auto.
           ++ unfold newline_free in *. now rewrite <- in_rev.
           ++ simpl. intros l' E. apply app_inj_tail in E as [_ E]. auto.
      * specialize (IH (c :: cur)). simpl in IH. rewrite <- app_assoc in IH. apply IH; [|discriminate].
        intros [E|Hi]; auto.
Qed.

Lemma lines_ok s : line_list s (lines s).
Proof. apply lines_from_ok. Qed.

Lemma lines_from_app l s : newline_free l -> forall cur, lines_from cur (l ++ s) = lines_from (rev l ++ cur) s.
Proof.
  unfold newline_free. induction l as [|c l IH]; intros N cur; simpl; auto.
  destruct (ascii_dec c newline) as [->|Nc]; [destruct N; now left|].
  rewrite IH by (intro Hi; apply N; now right). rewrite <- app_assoc. reflexivity.
Qed.

Lemma newline_eq {A} (x y : A) : (if ascii_dec newline newline then x else y) = x.
Proof. now destruct ascii_dec. Qed.

Lemma lines_unique s ls : line_list s ls -> lines s = ls.
Proof.
  unfold lines. induction 1 as [|l Ne N|l s ls N R H IH|l s ls N H IH]; auto.
  - rewrite <- (app_nil_r l) at 1. rewrite lines_from_app by auto. simpl. rewrite app_nil_r.
    destruct (rev l) eqn:E; [|rewrite <- E, rev_involutive; reflexivity].
    destruct Ne. now rewrite <- (rev_involutive l), E.
  - rewrite lines_from_app by auto. cbn [lines_from]. rewrite app_nil_r, newline_eq, IH. f_equal.
    destruct (rev l) as [|c l'] eqn:E.
    + now rewrite <- (rev_involutive l), E.
    + destruct (ascii_dec c return_char) as [->|].
      * destruct (R (rev l')). rewrite <- (rev_involutive l), E. reflexivity.
      * now rewrite <- E, rev_involutive.
  - change (l ++ return_char :: newline :: s) with (l ++ [return_char] ++ newline :: s). rewrite app_assoc.
    rewrite lines_from_app.
    + cbn [lines_from]. rewrite app_nil_r, newline_eq, IH, rev_app_distr. f_equal.
      cbn [rev app]. destruct (ascii_dec return_char return_char); [|congruence]. apply rev_involutive.
    + unfold newline_free in *. rewrite in_app_iff. intros [Hi|[Hi|[]]]; auto. discriminate.
Qed.

(** ** The arrow *)

Definition first_arrow (p r : text) : Prop :=
  forall p' r', p ++ arrow ++ r = p' ++ arrow ++ r' -> length p <= length p'.

Lemma split_some s p r : split_once_arrow s = Some (p, r) -> s = p ++ arrow ++ r /\ first_arrow p r.
Proof.
  revert p r. induction s as [|c s IH]; intros p r; [discriminate|].
  destruct s as [|c' rest]; [discriminate|].
  assert (G : (c = "-"%char -> c' <> ">"%char) ->
    option_map (fun '(p, r) => (c :: p, r)) (split_once_arrow (c' :: rest)) = Some (p, r) ->
    c :: c' :: rest = p ++ arrow ++ r /\ first_arrow p r).
  { intros Nc E. destruct (split_once_arrow (c' :: rest)) as [[p0 r0]|]; [|discriminate].
    injection E as <- <-. destruct (IH _ _ eq_refl) as [E F]. split; [simpl in *; now rewrite E|].
    intros p' r' E'. destruct p' as [|x p']; simpl in *.
    - injection E' as -> E'. rewrite E' in E. injection E as -> _. now destruct Nc.
    - injection E' as -> E'. apply le_n_S, (F p' r' E'). }
  cbn [split_once_arrow]. destruct (ascii_dec c "-") as [->|Nc]; [|apply G; congruence].
  destruct (ascii_dec c' ">") as [->|Nc']; [|apply G; congruence].
  intro E. injection E as <- <-. split; [reflexivity|]. intros p' r' _. apply Nat.le_0_l.
Qed.

Lemma split_none s : split_once_arrow s = None -> forall p r, s <> p ++ arrow ++ r.
Proof.
  induction s as [|c s IH]; intros H p r E.
  - destruct p; discriminate.
  - destruct s as [|c' rest].
    + destruct p as [|x [|y p]]; discriminate.
    + assert (G : option_map (fun '(p, r) => (c :: p, r)) (split_once_arrow (c' :: rest)) = None ->
        split_once_arrow (c' :: rest) = None) by (destruct split_once_arrow as [[]|]; [discriminate|auto]).
      destruct p as [|x p].
      * injection E as -> -> ->. discriminate.
      * injection E as -> E. apply (IH (ltac:(cbn [split_once_arrow] in H;
          destruct (ascii_dec x "-"); [destruct (ascii_dec c' ">"); [discriminate|]|]; apply G, H)) p r E).
Qed.

Lemma app_same_length {A} (p p' q q' : list A) : p ++ q = p' ++ q' -> length p = length p' -> p = p' /\ q = q'.
Proof.
  revert p'. induction p as [|x p IH]; intros [|x' p'] E L; try discriminate; auto.
  injection E as -> E. injection L as L. destruct (IH _ E L) as [-> ->]. auto.
Qed.

Lemma split_unique p r : first_arrow p r -> split_once_arrow (p ++ arrow ++ r) = Some (p, r).
Proof.
  intro F. destruct (split_once_arrow _) as [[p' r']|] eqn:E.
  - apply split_some in E as [E F']. pose proof (F _ _ E). pose proof (F' _ _ (eq_sym E)).
    apply app_same_length in E as [<- E]; [|lia]. injection E as ->. reflexivity.
  - now apply split_none with (p := p) (r := r) in E.
Qed.

Lemma first_arrow_nodash p r : Forall (fun c => c <> "-"%char) p -> first_arrow p r.
Proof.
  intros F p'. revert p F. induction p' as [|x p' IH]; intros p F r' E.
  - destruct F as [|c p Hc _]; auto. injection E as -> _. congruence.
  - destruct F as [|c p Hc Hp]; simpl; [lia|]. injection E as _ E. apply le_n_S, (IH p Hp r' E).
Qed.

(** ** Words *)

Lemma finish_word_ne cur ws : cur <> [] -> finish_word cur ws = rev cur :: ws.
Proof. now destruct cur. Qed.

Lemma rev_ne {A} (l : list A) : l <> [] -> rev l <> [].
Proof. intros N E. apply N. now rewrite <- (rev_involutive l), E. Qed.

Lemma words_from_app w s : Forall (fun c => ~ separator c) w -> forall cur,
  words_from cur (w ++ s) = words_from (rev w ++ cur) s.
Proof.
  induction 1 as [|c w Hc _ IH]; intro cur; simpl; auto. apply separator_no in Hc. rewrite Hc, IH, <- app_assoc.
  reflexivity.
Qed.

Lemma words_from_seps seps s : Forall separator seps -> words_from [] (seps ++ s) = words_from [] s.
Proof. induction 1 as [|c seps Hc _ IH]; simpl; auto. apply separator_ok in Hc. now rewrite Hc. Qed.

Lemma words_unique s ws : word_list s ws -> split_ascii_whitespace s = ws.
Proof.
  unfold split_ascii_whitespace. induction 1 as [|w [Ne N]|w seps s w' ws [Ne N] Ns Hs H IH]; auto.
  - rewrite <- (app_nil_r w) at 1. rewrite words_from_app by auto. cbn [words_from].
    rewrite app_nil_r, finish_word_ne, rev_involutive by now apply rev_ne. reflexivity.
  - rewrite words_from_app by auto. destruct Hs as [|c seps Hc Hs]; [congruence|]. cbn [app words_from].
    apply separator_ok in Hc. rewrite Hc, app_nil_r, finish_word_ne, rev_involutive by now apply rev_ne.
    rewrite words_from_seps, IH by auto. reflexivity.
Qed.

(** The words of a text that does not begin or end with a separator. *)
Lemma words_ok s : (forall c s', s = s' ++ [c] -> ~ separator c) ->
  (exists seps, Forall separator seps /\ exists s', s = seps ++ s' /\ word_list s' (words_from [] s)) /\
  forall cur, cur <> [] -> Forall (fun c => ~ separator c) cur -> word_list (rev cur ++ s) (words_from cur s).
Proof.
  induction s as [|c s IH]; intro L.
  - split.
    + exists []. split; auto. exists []. split; auto. constructor.
    + intros cur Ne N. simpl. rewrite app_nil_r, finish_word_ne by auto. apply words_one. split.
      * now apply rev_ne.
      * now apply Forall_rev'.
  - assert (L' : forall c s', s = s' ++ [c] -> ~ separator c)
      by (intros c' s' E; apply (L c' (c :: s')); now rewrite E).
    destruct (IH L') as [(seps & Hs & s' & E & W) IHc]. clear IH. cbn [words_from].
    destruct (is_ascii_whitespace c) eqn:S; [pose proof (proj1 (separator_ok c) S) as Sc
      | pose proof (proj1 (separator_no c) S) as Sc].
    + split.
      * exists (c :: seps). split; [constructor; auto|]. exists s'. split; auto. now rewrite E at 1.
      * intros cur Ne N. rewrite finish_word_ne by auto.
        destruct (words_from [] s) as [|w ws] eqn:Ew.
        -- inversion W; subst s'. rewrite app_nil_r in E. subst s. exfalso.
           destruct (exists_last (l := c :: seps) ltac:(discriminate)) as (q & x & Eq).
           apply (L x q Eq). assert (F : Forall separator (q ++ [x])) by (rewrite <- Eq; constructor; auto).
           apply Forall_app in F as [_ F]. now inversion F.
        -- rewrite E. change (rev cur ++ c :: seps ++ s') with (rev cur ++ (c :: seps) ++ s').
           apply words_more; auto; [|discriminate]. split; [now apply rev_ne|now apply Forall_rev'].
    + split.
      * exists []. split; auto. exists (c :: s). split; auto. apply (IHc [c]); [discriminate|]. auto.
      * intros cur Ne N. specialize (IHc (c :: cur) ltac:(discriminate) ltac:(auto)). simpl in IHc.
        now rewrite <- app_assoc in IHc.
Qed.

Lemma split_words_ok s : trimmed s -> word_list s (split_ascii_whitespace s).
Proof.
  intros [Nl Nr]. destruct (words_ok s) as [(seps & Hs & s' & E & W) _].
  - intros c s' E [Sp _]. now apply (Nr c s').
  - destruct Hs as [|c seps [Sc _] Hs].
    + unfold split_ascii_whitespace. simpl in E. now subst.
    + destruct (Nl c (seps ++ s')); auto.
Qed.

(** ** Nodes *)

Lemma bang_not_upper : ~ upper "!"%char.
Proof. unfold upper, code_in. cbv. lia. Qed.

Lemma parse_node_ok w n : w <> [] -> parse_node w = Ok n <-> node_text n w.
Proof.
  intro Ne. unfold parse_node, eqb. destruct eq_dec as [->|Nb].
  - split.
    + intro E. injection E as <-. constructor.
    + intro H. inversion H; subst; auto.
      * inversion H1; subst. now destruct bang_not_upper.
      * congruence.
  - destruct (forallb is_ascii_uppercase w) eqn:U.
    + apply uppers_ok in U. split.
      * intro E. injection E as <-. now constructor.
      * intro H. inversion H; subst; auto; [now destruct Nb|]. inversion U; subst. contradiction.
    + apply uppers_no in U. destruct w as [|c [|c' w]]; [congruence| |].
      * unfold is_ascii. destruct (nat_of_ascii c <? 128) eqn:A.
        -- apply Nat.ltb_lt in A. split.
           ++ intro E. injection E as <-. constructor; auto; congruence.
           ++ intro H. inversion H; subst; auto; [now destruct Nb|contradiction].
        -- apply Nat.ltb_ge in A. split; [discriminate|]. intro H. inversion H; subst; [now destruct Nb|contradiction|lia].
      * split; [discriminate|]. intro H. inversion H; subst. contradiction.
Qed.

Lemma parse_node_err w e : w <> [] -> parse_node w = Err e <-> e = InvalidNode w /\ forall n, ~ node_text n w.
Proof.
  intro Ne. split.
  - intro E. split.
    + unfold parse_node in E. destruct (eqb _ _); [discriminate|]. destruct forallb; [discriminate|].
      destruct w as [|c [|c' w]]; try congruence. destruct (is_ascii c); congruence.
    + intros n Hn. apply parse_node_ok in Hn; auto. congruence.
  - intros [-> H]. destruct (parse_node w) eqn:E.
    + apply parse_node_ok in E; auto. now destruct (H a).
    + unfold parse_node in E. destruct (eqb _ _); [discriminate|]. destruct forallb; [discriminate|].
      destruct w as [|c [|c' w]]; try congruence. destruct (is_ascii c); congruence.
    + unfold parse_node in E. destruct (eqb _ _); [discriminate|]. destruct forallb; [discriminate|].
      destruct w as [|c [|c' w]]; try congruence. destruct (is_ascii c); congruence.
    + unfold parse_node in E. destruct (eqb _ _); [discriminate|]. destruct forallb; [discriminate|].
      destruct w as [|c [|c' w]]; try congruence. destruct (is_ascii c); congruence.
Qed.

Lemma mapM_iff {E A B} (f : A -> outcome E B) l bs : mapM f l = Ok bs <-> Forall2 (fun a b => f a = Ok b) l bs.
Proof.
  revert bs. induction l as [|a l IH]; intro bs; simpl.
  - split; [intro H; injection H as <-; constructor|inversion 1; auto].
  - split.
    + destruct (f a) as [b| | |] eqn:Ea; try discriminate. simpl. destruct (mapM f l) as [bs'| | |]; try discriminate.
      simpl. intro H. injection H as <-. constructor; auto. now apply IH.
    + inversion 1; subst. rewrite H2. simpl. apply IH in H4. rewrite H4. reflexivity.
Qed.

Lemma mapM_err_iff {E A B} (f : A -> outcome E B) l e : mapM f l = Err e <->
  exists l1 a l2 bs, l = l1 ++ a :: l2 /\ Forall2 (fun a b => f a = Ok b) l1 bs /\ f a = Err e.
Proof.
  induction l as [|a l IH]; simpl.
  - split; [discriminate|]. intros ([|] & ? & ? & ? & ? & _); discriminate.
  - split.
    + destruct (f a) as [b|e'| |] eqn:Ea; try discriminate; simpl.
      * destruct (mapM f l) as [bs'|e'| |]; try discriminate. simpl. intro H. injection H as ->.
        destruct (proj1 IH eq_refl) as (l1 & a' & l2 & bs & -> & F & Ha).
        exists (a :: l1), a', l2, (b :: bs). auto.
      * intro H. injection H as ->. exists [], a, l, []. auto.
    + intros (l1 & a' & l2 & bs & El & F & Ha). destruct F as [|x b l1 bs Hx F].
      * injection El as -> ->. rewrite Ha. reflexivity.
      * injection El as -> ->. rewrite Hx. simpl.
        rewrite (proj2 IH); [reflexivity|]. exists l1, a', l2, bs. auto.
Qed.

Lemma mapM_total {E A B} (f : A -> outcome E B) l : (forall a, (exists b, f a = Ok b) \/ exists e, f a = Err e) ->
  (exists bs, mapM f l = Ok bs) \/ exists e, mapM f l = Err e.
Proof.
  intro H. induction l as [|a l IH]; simpl; [eauto|].
  destruct (H a) as [[b ->]|[e ->]]; simpl; [|eauto].
  destruct IH as [[bs ->]|[e ->]]; simpl; eauto.
Qed.

Lemma word_list_ne s ws : word_list s ws -> Forall (fun w => w <> []) ws.
Proof. induction 1; constructor; auto; apply H. Qed.

Lemma parse_nodes_ok ws ns : Forall (fun w => w <> []) ws -> Forall2 (fun w n => parse_node w = Ok n) ws ns <-> Forall2 node_text ns ws.
Proof.
  intro Ne. split.
  - intro H. induction H as [|w n ws ns E H IH]; [constructor|]. inversion Ne; subst. constructor; auto.
    now apply parse_node_ok.
  - intro H. induction H as [|n w ns ws E H IH]; [constructor|]. inversion Ne; subst. constructor; auto.
    now apply parse_node_ok.
Qed.

(** ** A line *)

Lemma line_parts_model line label ws : line_parts line label ws <->
  exists p r, split_once_arrow line = Some (p, r) /\ trim p = label /\ Forall upper label /\
    split_ascii_whitespace (trim r) = ws.
Proof.
  split.
  - intros (s1 & s2 & s3 & body & s4 & -> & F & U & T & W). rewrite !Forall_app in F. destruct F as (F1 & F2 & F3 & F4).
    exists (s1 ++ label ++ s2), (s3 ++ body ++ s4). repeat split; auto.
    + replace (s1 ++ label ++ s2 ++ arrow ++ s3 ++ body ++ s4) with
        ((s1 ++ label ++ s2) ++ arrow ++ (s3 ++ body ++ s4)) by now rewrite <- !app_assoc.
      apply split_unique, first_arrow_nodash. rewrite !Forall_app. repeat split.
      * eapply Forall_impl; [|exact F1]. apply not_dash_space.
      * eapply Forall_impl; [|exact U]. apply not_dash_upper.
      * eapply Forall_impl; [|exact F2]. apply not_dash_space.
    + apply trim_unique; auto. now apply trimmed_upper.
    + rewrite trim_unique by auto. now apply words_unique.
  - intros (p & r & E & <- & U & <-). apply split_some in E as [-> _].
    destruct (trim_spec p) as (s1 & s2 & Ep & F1 & F2 & _).
    destruct (trim_spec r) as (s3 & s4 & Er & F3 & F4 & T).
    exists s1, s2, s3, (trim r), s4. repeat split; auto.
    + rewrite Ep at 1. rewrite Er at 1. now rewrite <- !app_assoc.
    + rewrite !Forall_app. auto.
    + apply T.
    + apply T.
    + now apply split_words_ok.
Qed.

Lemma line_parts_ne line label ws : line_parts line label ws -> Forall (fun w => w <> []) ws.
Proof. intros (s1 & s2 & s3 & body & s4 & _ & _ & _ & _ & W). eapply word_list_ne, W. Qed.

Lemma parse_line_ok line r : parse_line line = Ok r <-> rule_text line r.
Proof.
  unfold parse_line, rule_text. destruct r as [label nodes]. cbn [symbol rhs]. split.
  - destruct (split_once_arrow line) as [[p rl]|] eqn:Es; [|discriminate].
    destruct (forallb is_ascii_uppercase (trim p)) eqn:U; [|discriminate]. cbn [negb].
    destruct (mapM parse_node (split_ascii_whitespace (trim rl))) as [ns| | |] eqn:M; try discriminate.
    simpl. intro E. injection E as <- <-. apply uppers_ok in U. exists (split_ascii_whitespace (trim rl)).
    assert (P : line_parts line (trim p) (split_ascii_whitespace (trim rl))) by (apply line_parts_model; eauto 10).
    split; auto. apply parse_nodes_ok; [eapply line_parts_ne, P|]. now apply mapM_iff.
  - intros (ws & P & F). pose proof (line_parts_ne _ _ _ P) as Ne.
    apply line_parts_model in P as (p & rl & -> & <- & U & <-).
    apply uppers_ok in U. rewrite U. cbn [negb]. apply parse_nodes_ok in F; auto. apply mapM_iff in F. rewrite F.
    reflexivity.
Qed.

Lemma parse_line_err line e : parse_line line = Err e <-> bad_line line e.
Proof.
  unfold parse_line. split.
  - destruct (split_once_arrow line) as [[p rl]|] eqn:Es.
    + destruct (forallb is_ascii_uppercase (trim p)) eqn:U; cbn [negb].
      * destruct (mapM parse_node (split_ascii_whitespace (trim rl))) as [ns|e'| |] eqn:M; try discriminate.
        simpl. intro E. injection E as ->. apply uppers_ok in U.
        assert (P : line_parts line (trim p) (split_ascii_whitespace (trim rl))) by (apply line_parts_model; eauto 10).
        pose proof (line_parts_ne _ _ _ P) as Ne.
        apply mapM_err_iff in M as (l1 & a & l2 & bs & El & F & Ea). rewrite El in *.
        apply Forall_app in Ne as [Ne1 Ne2]. inversion Ne2; subst. apply parse_node_err in Ea as [-> N]; auto.
        apply (bad_node _ _ _ _ _ _ P (proj1 (parse_nodes_ok _ _ Ne1) F) N).
      * intro E. injection E as <-. apply split_some in Es as [-> Fa]. apply uppers_no in U.
        destruct (trim_spec p) as (s1 & s2 & Ep & F1 & F2 & T). remember (trim p) as label. subst p.
        rewrite <- !app_assoc. apply bad_label; auto.
        -- now apply Forall_app.
        -- intros p r' E. apply (Fa p r'). now rewrite <- !app_assoc.
    + intro E. injection E as <-. constructor. now apply split_none.
  - intro B. destruct B as [line N|s1 label s2 r F T U L|line label ws ns w ws' P F N].
    + destruct (split_once_arrow line) as [[p rl]|] eqn:Es; auto. apply split_some in Es as [-> _]. now destruct (N p rl).
    + replace (s1 ++ label ++ s2 ++ arrow ++ r) with ((s1 ++ label ++ s2) ++ arrow ++ r) by now rewrite <- !app_assoc.
      rewrite split_unique.
      * apply Forall_app in F as [F1 F2]. rewrite trim_unique by auto. apply uppers_no in U. rewrite U. reflexivity.
      * intros p r' E. apply (L p r'). now rewrite <- E, <- !app_assoc.
    + pose proof (line_parts_ne _ _ _ P) as Ne.
      apply line_parts_model in P as (p & rl & -> & <- & U & Ew). apply uppers_ok in U. rewrite U. cbn [negb].
      rewrite Ew. apply Forall_app in Ne as [Ne1 Ne2]. inversion Ne2; subst.
      rewrite (proj2 (mapM_err_iff parse_node (ws ++ w :: ws') (InvalidNode w))); [reflexivity|].
      exists ws, w, ws', ns. repeat split; auto; [now apply parse_nodes_ok|]. now apply parse_node_err.
Qed.

Lemma parse_line_total line : (exists r, parse_line line = Ok r) \/ exists e, parse_line line = Err e.
Proof.
  unfold parse_line. destruct (split_once_arrow line) as [[p rl]|]; [|eauto].
  destruct (negb _); [eauto|].
  destruct (mapM_total parse_node (split_ascii_whitespace (trim rl))) as [[ns ->]|[e ->]]; simpl; eauto.
  intro w. unfold parse_node. destruct (eqb _ _); [eauto|]. destruct forallb; [eauto|].
  destruct w as [|c [|c' w]]; eauto. destruct (is_ascii c); eauto.
Qed.

(** ** A text *)

Lemma Forall2_flip_iff {A B} (P Q : A -> B -> Prop) l m : (forall a b, P a b <-> Q a b) -> Forall2 P l m <-> Forall2 Q l m.
Proof. intro H. split; induction 1; constructor; auto; now apply H. Qed.

Lemma from_str_ok s g : from_grammar_str s = Ok g <-> spells s g.
Proof.
  unfold from_grammar_str, spells. split.
  - intro F. exists (lines s). split; [apply lines_ok|]. apply mapM_iff in F.
    now apply (Forall2_flip_iff _ _ _ _ parse_line_ok).
  - intros (ls & L & F). apply lines_unique in L. rewrite L. apply mapM_iff.
    now apply (Forall2_flip_iff _ _ _ _ parse_line_ok).
Qed.

Lemma from_str_err s e : from_grammar_str s = Err e <-> bad_text s e.
Proof.
  unfold from_grammar_str, bad_text. split.
  - intro M. apply mapM_err_iff in M. revert M. intros (ls & l & ls' & rs & E & F & B). exists ls, rs, l, ls'. rewrite <- E. repeat split.
    + apply lines_ok.
    + now apply (Forall2_flip_iff _ _ _ _ parse_line_ok).
    + now apply parse_line_err.
  - intros (ls & rs & l & ls' & E & F & B). apply lines_unique in E. apply mapM_err_iff. exists ls, l, ls', rs. repeat split; auto.
    + now apply (Forall2_flip_iff _ _ _ _ parse_line_ok).
    + now apply parse_line_err.
Qed.

Lemma from_str_total s : (exists g, from_grammar_str s = Ok g) \/ exists e, from_grammar_str s = Err e.
Proof. apply mapM_total, parse_line_total. Qed.

(** ** Writing a grammar *)

Lemma separator_space : separator " "%char.
Proof. split; [now right|discriminate]. Qed.

Lemma upper_word l : l <> [] -> Forall upper l -> word l.
Proof.
  intros Ne U. split; auto. eapply Forall_impl; [|exact U]. intros c Hc [Hs _]. now apply (upper_not_space c).
Qed.

Lemma show_node_ok n :
  match n with
  | Terminal (Token c) => nat_of_ascii c < 128 /\ ~ upper c /\ c <> "!"%char /\ ~ space c
  | Terminal Epsilon => True
  | Terminal EndOfStream => False
  | Production l => l <> [] /\ Forall upper l
  end -> node_text n (show_node n) /\ word (show_node n) /\ Forall (fun c => ~ space c) (show_node n).
Proof.
  destruct n as [[c| |]|l]; cbn [show_node].
  - intros (A & U & B & S). repeat split; auto; [constructor; auto|discriminate|].
    constructor; auto. now intros [].
  - intros _. assert (~ space "!"%char) by (intros [H|H]; [cbv in H; lia|discriminate]).
    repeat split; auto; [constructor|discriminate|]. constructor; auto. now intros [].
  - intros [].
  - intros [Ne U]. repeat split; auto; [now constructor|now apply upper_word|].
    eapply Forall_impl; [|exact U]. apply upper_not_space.
Qed.

Lemma app_last_eq {A} (a b : list A) x s : a ++ b = s ++ [x] -> b <> [] -> exists b', b = b' ++ [x].
Proof.
  intros E N. destruct (exists_last N) as (b' & y & ->). rewrite app_assoc in E.
  apply app_inj_tail in E as [_ ->]. eauto.
Qed.

(** The body is written with a space before every node; the first one is trimmed. *)
Lemma show_nodes_ok ns : Forall (fun n => node_text n (show_node n) /\ word (show_node n) /\
    Forall (fun c => ~ space c) (show_node n)) ns ->
  exists sp body, flat_map (fun n => " "%char :: show_node n) ns = sp ++ body /\
    Forall separator sp /\ (ns <> [] -> sp <> []) /\ trimmed body /\ word_list body (map show_node ns) /\ (ns <> [] -> body <> []).
Proof.
  induction ns as [|n ns IH]; intro F.
  - exists [], []. repeat split; auto; try congruence; try constructor; intros c s' E; now destruct s'.
  - inversion F as [|? ? (Hn & [Wn Wn'] & Sn) Hns]; subst.
    destruct (IH Hns) as (sp & body & E & Hsp & Nsp & [Tl Tr] & W & Nb). simpl. rewrite E.
    exists [" "%char], (show_node n ++ sp ++ body). split; [reflexivity|]. split; [constructor; auto; apply separator_space|].
    split; [discriminate|].
    assert (L : forall c s', show_node n = s' ++ [c] -> ~ space c).
    { intros c s' E'. rewrite E' in Sn. apply Forall_app in Sn as [_ Sn]. now inversion Sn. }
    destruct ns as [|n' ns].
    + simpl in E. symmetry in E. apply app_eq_nil in E as [-> ->]. simpl. rewrite app_nil_r.
      repeat split; auto.
      * intros c s' E'. rewrite E' in Sn. now inversion Sn.
      * constructor. now split.
    + repeat split.
      * intros c s' E'. destruct (show_node n) as [|x w]; [congruence|]. injection E' as -> _. now inversion Sn.
      * intros c s' E'. rewrite app_assoc in E'. apply app_last_eq in E' as (b' & ->); [|apply Nb; discriminate].
        now apply (Tr c b').
      * cbn [map] in *. apply words_more; auto; [now split|apply Nsp; discriminate].
      * intros _ E'. now apply app_eq_nil in E' as [E' _].
Qed.

Lemma show_nodes_text ns : Forall (fun n => node_text n (show_node n)) ns -> Forall2 node_text ns (map show_node ns).
Proof. induction 1; simpl; constructor; auto. Qed.

Lemma show_grammar_spells g : writable g -> spells (show_grammar g) g.
Proof.
  unfold spells. induction 1 as [|r g [U F] Hg (ls & L & R)].
  - exists []. split; constructor.
  - assert (F' : Forall (fun n => node_text n (show_node n) /\ word (show_node n) /\
      Forall (fun c => ~ space c) (show_node n)) (rhs r)) by (eapply Forall_impl; [|exact F]; apply show_node_ok).
    assert (NL : forall c, upper c \/ ~ space c -> c <> newline).
    { intros c [Hc|Hc] ->.
      - apply (upper_not_space newline); auto. left. cbv. lia.
      - apply Hc. left. cbv. lia. }
    assert (NR : forall c, upper c \/ ~ space c -> c <> return_char).
    { intros c [Hc|Hc] ->.
      - apply (upper_not_space return_char); auto. left. cbv. lia.
      - apply Hc. left. cbv. lia. }
    assert (A : Forall (fun c => c <> newline /\ c <> return_char) (show_rule r)).
    { unfold show_rule. rewrite Forall_app. split.
      - eapply Forall_impl; [|exact U]. intros c Hc. split; auto.
      - constructor; [split; discriminate|]. unfold arrow. repeat (constructor; [split; discriminate|]).
        apply Forall_forall. intros c Hc. apply in_flat_map in Hc as (n & Hn & Hc).
        rewrite Forall_forall in F'. destruct (F' n Hn) as (_ & _ & Sn). rewrite Forall_forall in Sn.
        destruct Hc as [<-|Hc]; [split; discriminate|]. split; auto. }
    exists (show_rule r :: ls). split.
    + cbn [show_grammar flat_map]. rewrite <- app_assoc. apply lines_more; auto.
      * intro Hi. rewrite Forall_forall in A. now apply A in Hi as [].
      * intros l' E. rewrite E in A. apply Forall_app in A as [_ A]. inversion A as [|? ? [_ N] _]; subst. congruence.
    + constructor; auto. destruct (show_nodes_ok (rhs r) F') as (sp & body & E & Hsp & _ & T & W & _).
      exists (map show_node (rhs r)). split.
      * exists [], [" "%char], sp, body, []. repeat split; auto; try apply T.
        -- unfold show_rule. rewrite app_nil_r. cbn [app]. do 2 f_equal. exact (f_equal (app arrow) E).
        -- rewrite app_nil_r. simpl. constructor; [now right|]. eapply Forall_impl; [|exact Hsp]. now intros c [].
      * apply show_nodes_text. eapply Forall_impl; [|exact F']. now intros n [].
Qed.

Lemma show_round_trip g : writable g -> from_grammar_str (show_grammar g) = Ok g.
Proof. intro W. now apply from_str_ok, show_grammar_spells. Qed.
