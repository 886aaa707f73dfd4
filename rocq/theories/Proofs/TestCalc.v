(** Meanings in the grammar of tests/test_simple.rs (C65). *)
From Coq Require Import Arith Bool String Ascii NArith List Lia.
From Verif Require Import Base.Prelude Spec.Grammar Model.TokenTree Model.Terminal Model.Constructor Model.CodeGen Model.Runtime Model.Symbol Model.FrontEnd.
From Verif Require Import Model.TestGrammars Spec.Values Spec.Meaning Spec.TestLanguages.
From Verif Require Import Proofs.MacroRefute Proofs.Meaning Proofs.TestGrammars Proofs.TestLanguages.
Import ListNotations.
Open Scope string_scope.
Open Scope list_scope.

(** ** Arithmetic modulo the size of [u32] *)
Lemma wrap_add a b : wrap (wrap a + wrap b) = wrap (a + b).
Proof. unfold wrap. symmetry. apply N.add_mod. discriminate. Qed.
Lemma wrap_mul a b : wrap (wrap a * wrap b) = wrap (a * b).
Proof. unfold wrap. symmetry. apply N.mul_mod. discriminate. Qed.
Lemma wrap_small a : (a < u32_size)%N -> wrap a = a.
Proof. apply N.mod_small. Qed.
Lemma wrap_digit a d : (d < 10)%N -> wrap (wrap (10 * wrap a) + d) = wrap (10 * a + d).
Proof.
  intros Hd. assert (Hs : (d < u32_size)%N) by (unfold u32_size; lia). rewrite <- (wrap_small d Hs) at 1. rewrite wrap_add.
  rewrite <- (wrap_small 10 ltac:(reflexivity)) at 1. rewrite <- (wrap_add (wrap 10 * wrap a) d), wrap_mul, wrap_add. reflexivity.
Qed.

Section Join.
Context {X : Type}.
Variable sep : X.
Lemma join_snoc ls l : ls <> [] -> join sep (ls ++ [l]) = join sep ls ++ sep :: l.
Proof.
  induction ls as [|a ls IH]; intros H; [congruence|]. destruct ls as [|b ls]; [reflexivity|].
  change (a ++ sep :: join sep ((b :: ls) ++ [l]) = (a ++ sep :: join sep (b :: ls)) ++ sep :: l). rewrite (IH ltac:(discriminate)), <- app_assoc. reflexivity.
Qed.
End Join.

Lemma number_snoc ds d : number_value (ds ++ [d]) = (10 * number_value ds + d)%N.
Proof. unfold number_value. now rewrite fold_left_app. Qed.

Lemma fold_mul l a : fold_right N.mul a l = (fold_right N.mul 1 l * a)%N.
Proof. induction l as [|b l IH]; cbn [fold_right]; [lia|]. rewrite IH. lia. Qed.
Lemma fold_add l a : fold_right N.add a l = (fold_right N.add 0 l + a)%N.
Proof. induction l as [|b l IH]; cbn [fold_right]; [lia|]. rewrite IH. lia. Qed.
Lemma product_snoc ns n : product_value (ns ++ [n]) = (product_value ns * number_value n)%N.
Proof. unfold product_value. rewrite map_app, fold_right_app. cbn [map fold_right]. rewrite fold_mul. f_equal. lia. Qed.
Lemma sum_snoc ps p : sum_value (ps ++ [p]) = (sum_value ps + product_value p)%N.
Proof. unfold sum_value. rewrite map_app, fold_right_app. cbn [map fold_right]. rewrite fold_add. f_equal. lia. Qed.
Lemma product_one n : product_value [n] = number_value n.
Proof. unfold product_value. cbn [map fold_right]. lia. Qed.
Lemma sum_one p : sum_value [p] = product_value p.
Proof. unfold sum_value. cbn [map fold_right]. lia. Qed.

Lemma product_text_snoc ns n : ns <> [] -> product_text (ns ++ [n]) = product_text ns ++ 42%N :: number_text n.
Proof. intros H. unfold product_text. rewrite map_app. apply join_snoc. destruct ns; [congruence|discriminate]. Qed.
Lemma sum_text_snoc ps p : ps <> [] -> sum_text (ps ++ [p]) = sum_text ps ++ 43%N :: product_text p.
Proof. intros H. unfold sum_text. rewrite map_app. apply join_snoc. destruct ps; [congruence|discriminate]. Qed.

Lemma snoc_not_nil {X} (l : list X) x : l ++ [x] <> [].
Proof. destruct l; discriminate. Qed.

(** ** The grammar *)
Definition calc_gi : grammar_info := Eval vm_compute in decl_gi (decls_of test_simple_input).
Definition num_val (n : N) : val u32_rust := RUser (wrap n).
Notation raws := (map (fun c : N => TRaw c : tok u32_rust)).

Definition calc_means (l : string) (ts : list (tok u32_rust)) (v : val u32_rust) : Prop :=
  if String.eqb l "dig" then exists d, (d < 10)%N /\ ts = raws [digit_char d] /\ v = RTok (TRaw (digit_char d))
  else if String.eqb l "V" then exists ds, is_number ds /\ ts = raws (number_text ds) /\ v = num_val (number_value ds)
  else if String.eqb l "P" then exists ns, is_product ns /\ ts = raws (product_text ns) /\ v = num_val (product_value ns)
  else exists ps, is_sum ps /\ ts = raws (sum_text ps) /\ v = num_val (sum_value ps).

Lemma digit_read d : (d < 10)%N -> to_digit (digit_char d) = Some d.
Proof.
  intros H. unfold to_digit, digit_char. rewrite (proj2 (N.leb_le 48 (48 + d))), (proj2 (N.leb_le (48 + d) 57)) by lia. cbn [andb]. f_equal. lia.
Qed.

(** The values of the rules. *)
Notation value i vs := (rule_value u32_rust calc_gi i (combine (node_indices (match nth_error (gi_rules calc_gi) i with Some r => pr_nodes r | None => [] end)) vs)).
Notation raw c := (RTok (TRaw c) : val u32_rust).
Notation ok v := (@inl (val u32_rust) (UErr u32_rust) v).
Lemma value0 v : value 0 [v] = ok v. Proof. reflexivity. Qed.
Lemma value1 a b c : value 1 [num_val a; raw c; num_val b] = ok (num_val (a + b)).
Proof. change (ok (RUser (wrap (wrap a + wrap b))) = ok (num_val (a + b))). now rewrite wrap_add. Qed.
Lemma value2 v : value 2 [v] = ok v. Proof. reflexivity. Qed.
Lemma value3 a b c : value 3 [num_val a; raw c; num_val b] = ok (num_val (a * b)).
Proof. change (ok (RUser (wrap (wrap a * wrap b))) = ok (num_val (a * b))). now rewrite wrap_mul. Qed.
Lemma value4 v : value 4 [v] = ok v. Proof. reflexivity. Qed.
Lemma value5 a d : (d < 10)%N -> value 5 [num_val a; raw (digit_char d)] = ok (num_val (10 * a + d)).
Proof.
  intros H. change (match match to_digit (digit_char d) with Some d => Some (ok (RUser (wrap (wrap (10 * wrap a) + d)))) | None => None end with Some v => v | None => ok RUnit end = ok (num_val (10 * a + d))).
  rewrite (digit_read d H), wrap_digit by exact H. reflexivity.
Qed.
Lemma value6 d : (d < 10)%N -> value 6 [raw (digit_char d)] = ok (num_val d).
Proof.
  intros H. change (match match to_digit (digit_char d) with Some d => Some (ok (RUser d)) | None => None end with Some v => v | None => ok RUnit end = ok (num_val d)).
  rewrite (digit_read d H). unfold num_val. rewrite wrap_small; [reflexivity|]. unfold u32_size. lia.
Qed.

Lemma calc_rules i r ts vs v : nth_error (gi_rules calc_gi) i = Some r -> spread u32_rust calc_gi calc_means (pr_nodes r) ts vs ->
  rule_value u32_rust calc_gi i (combine (node_indices (pr_nodes r)) vs) = inl v -> calc_means (pr_name r) ts v.
Proof.
  intros Hi Hs Hv. destruct i as [|i]; [|destruct i as [|i]; [|destruct i as [|i]; [|destruct i as [|i]; [|destruct i as [|i]; [|destruct i as [|i]; [|destruct i as [|i]]]]]]].
  - injection Hi as <-. destruct Hs as (t1 & t2 & v1 & vs' & -> & -> & (ps & H1 & -> & ->) & -> & ->).
    pose proof (eq_trans (eq_sym (value0 _)) Hv) as E. injection E as <-. rewrite app_nil_r. exists ps. auto.
  - injection Hi as <-. destruct Hs as (t1 & t2 & v1 & vs' & -> & -> & (ps & H1 & -> & ->) & k & t3 & vs2 & -> & -> & K & t4 & t5 & v2 & vs3 & -> & -> & (p & H2 & -> & ->) & -> & ->).
    apply raw_sym in K; [|reflexivity]. subst k. pose proof (eq_trans (eq_sym (value1 (sum_value ps) (product_value p) 43%N)) Hv) as E. injection E as <-.
    exists (ps ++ [p]). split; [split; [apply snoc_not_nil|apply Forall_app; split; [apply H1|repeat constructor; apply H2]]|].
    rewrite sum_text_snoc, sum_snoc by apply H1. rewrite app_nil_r, map_app. auto.
  - injection Hi as <-. destruct Hs as (t1 & t2 & v1 & vs' & -> & -> & (p & H1 & -> & ->) & -> & ->).
    pose proof (eq_trans (eq_sym (value2 _)) Hv) as E. injection E as <-. rewrite app_nil_r. exists [p]. rewrite sum_one. repeat split; try discriminate. repeat constructor; apply H1.
  - injection Hi as <-. destruct Hs as (t1 & t2 & v1 & vs' & -> & -> & (ps & H1 & -> & ->) & k & t3 & vs2 & -> & -> & K & t4 & t5 & v2 & vs3 & -> & -> & (p & H2 & -> & ->) & -> & ->).
    apply raw_sym in K; [|reflexivity]. subst k. pose proof (eq_trans (eq_sym (value3 (product_value ps) (number_value p) 42%N)) Hv) as E. injection E as <-.
    exists (ps ++ [p]). split; [split; [apply snoc_not_nil|apply Forall_app; split; [apply H1|repeat constructor; apply H2]]|].
    rewrite product_text_snoc, product_snoc by apply H1. rewrite app_nil_r, map_app. auto.
  - injection Hi as <-. destruct Hs as (t1 & t2 & v1 & vs' & -> & -> & (p & H1 & -> & ->) & -> & ->).
    pose proof (eq_trans (eq_sym (value4 _)) Hv) as E. injection E as <-. rewrite app_nil_r. exists [p]. rewrite product_one. repeat split; try discriminate. repeat constructor; apply H1.
  - injection Hi as <-. destruct Hs as (t1 & t2 & v1 & vs' & -> & -> & (ds & H1 & -> & ->) & t4 & t5 & v2 & vs3 & -> & -> & (d & H2 & -> & ->) & -> & ->).
    pose proof (eq_trans (eq_sym (value5 (number_value ds) d H2)) Hv) as E. injection E as <-.
    exists (ds ++ [d]). split; [split; [apply snoc_not_nil|apply Forall_app; split; [apply H1|repeat constructor; apply H2]]|].
    rewrite number_snoc, app_nil_r. unfold number_text. rewrite !map_app. auto.
  - injection Hi as <-. destruct Hs as (t1 & t2 & v1 & vs' & -> & -> & (d & H1 & -> & ->) & -> & ->).
    pose proof (eq_trans (eq_sym (value6 d H1)) Hv) as E. injection E as <-. rewrite app_nil_r. exists [d]. repeat split; try discriminate. repeat constructor; apply H1.
  - do 10 (destruct i as [|i]; [injection Hi as <-; destruct Hs as (k & t3 & vs2 & -> & -> & K & -> & ->); apply raw_sym in K; [|reflexivity]; subst k;
      match goal with H : _ = inl ?v |- calc_means _ [TRaw ?c] _ => value_is H (RTok (TRaw c) : val u32_rust) end;
      match goal with |- context [char_literal ?c] => idtac | _ => idtac end; cbn;
      first [exists 0%N; split; [reflexivity|split; reflexivity]|exists 1%N; split; [reflexivity|split; reflexivity]|exists 2%N; split; [reflexivity|split; reflexivity]|exists 3%N; split; [reflexivity|split; reflexivity]
            |exists 4%N; split; [reflexivity|split; reflexivity]|exists 5%N; split; [reflexivity|split; reflexivity]|exists 6%N; split; [reflexivity|split; reflexivity]|exists 7%N; split; [reflexivity|split; reflexivity]
            |exists 8%N; split; [reflexivity|split; reflexivity]|exists 9%N; split; [reflexivity|split; reflexivity]]|]).
    destruct i; discriminate.
Qed.

Notation mean l := (means u32_rust calc_gi l).
Lemma dig_means d : (d < 10)%N -> mean "dig" (raws [digit_char d]) (raw (digit_char d)).
Proof.
  intros H. set (r := mk_prule "dig" (Some [TIdent "char"]) [PNSymbol (mk_symbol (String "'" (String (ascii_of_N (48 + d)) "'")) PGNone)] None).
  apply (means_rule u32_rust calc_gi (7 + N.to_nat d) r (raws [digit_char d]) [raw (digit_char d)]); subst r;
    (assert (Hd : (d = 0 \/ d = 1 \/ d = 2 \/ d = 3 \/ d = 4 \/ d = 5 \/ d = 6 \/ d = 7 \/ d = 8 \/ d = 9)%N) by lia);
    repeat (destruct Hd as [->|Hd]); try subst d; try reflexivity;
    (refine (am_symbol u32_rust calc_gi _ (TRaw _) [] [] [] _ (am_nil _ _)); reflexivity).
Qed.

Lemma number_means ds : is_number ds -> mean "V" (raws (number_text ds)) (num_val (number_value ds)).
Proof.
  intros (Hne & Hds). induction ds as [|d ds IH] using rev_ind; [congruence|]. apply Forall_app in Hds. destruct Hds as (H1 & H2). inversion H2 as [|? ? Hd _]. subst.
  destruct ds as [|d' ds'].
  - apply (means_rule u32_rust calc_gi 6 _ (raws [digit_char d]) [raw (digit_char d)] _ eq_refl); [|exact (value6 d Hd)].
    apply (am_label u32_rust calc_gi "dig" (raws [digit_char d]) _ [] [] []); [now apply dig_means|constructor].
  - set (ds := d' :: ds') in *. rewrite number_snoc. unfold number_text. rewrite !map_app.
    apply (means_rule u32_rust calc_gi 5 _ _ [num_val (number_value ds); raw (digit_char d)] _ eq_refl); [|exact (value5 _ d Hd)].
    apply (am_label u32_rust calc_gi "V"); [apply IH; [discriminate|exact H1]|].
    apply (am_label u32_rust calc_gi "dig" (raws [digit_char d]) _ [] [] []); [now apply dig_means|constructor].
Qed.

Lemma product_means ns : is_product ns -> mean "P" (raws (product_text ns)) (num_val (product_value ns)).
Proof.
  intros (Hne & Hns). induction ns as [|n ns IH] using rev_ind; [congruence|]. apply Forall_app in Hns. destruct Hns as (H1 & H2). inversion H2 as [|? ? Hn _]. subst.
  destruct ns as [|n' ns'].
  - cbn [app]. rewrite product_one. apply (means_rule u32_rust calc_gi 4 _ (raws (number_text n)) [num_val (number_value n)] _ eq_refl); [|exact (value4 _)].
    rewrite <- (app_nil_r (raws (number_text n))). apply (am_label u32_rust calc_gi "V" _ _ [] [] []); [now apply number_means|constructor].
  - set (ns := n' :: ns') in *. rewrite product_snoc, product_text_snoc, map_app by discriminate.
    apply (means_rule u32_rust calc_gi 3 _ _ [num_val (product_value ns); raw 42%N; num_val (number_value n)] _ eq_refl); [|exact (value3 _ _ _)].
    apply (am_label u32_rust calc_gi "P"); [apply IH; [discriminate|exact H1]|]. apply (am_symbol u32_rust calc_gi (mk_symbol "'*'" PGNone) (TRaw 42%N) _ (raws (number_text n)) [num_val (number_value n)]); [reflexivity|].
    rewrite <- (app_nil_r (raws (number_text n))). apply (am_label u32_rust calc_gi "V" _ _ [] [] []); [now apply number_means|constructor].
Qed.

Lemma sum_means ps : is_sum ps -> mean "A" (raws (sum_text ps)) (num_val (sum_value ps)).
Proof.
  intros (Hne & Hps). induction ps as [|p ps IH] using rev_ind; [congruence|]. apply Forall_app in Hps. destruct Hps as (H1 & H2). inversion H2 as [|? ? Hp _]. subst.
  destruct ps as [|p' ps'].
  - cbn [app]. rewrite sum_one. apply (means_rule u32_rust calc_gi 2 _ (raws (product_text p)) [num_val (product_value p)] _ eq_refl); [|exact (value2 _)].
    rewrite <- (app_nil_r (raws (product_text p))). apply (am_label u32_rust calc_gi "P" _ _ [] [] []); [now apply product_means|constructor].
  - set (ps := p' :: ps') in *. rewrite sum_snoc, sum_text_snoc, map_app by discriminate.
    apply (means_rule u32_rust calc_gi 1 _ _ [num_val (sum_value ps); raw 43%N; num_val (product_value p)] _ eq_refl); [|exact (value1 _ _ _)].
    apply (am_label u32_rust calc_gi "A"); [apply IH; [discriminate|exact H1]|]. apply (am_symbol u32_rust calc_gi (mk_symbol "'+'" PGNone) (TRaw 43%N) _ (raws (product_text p)) [num_val (product_value p)]); [reflexivity|].
    rewrite <- (app_nil_r (raws (product_text p))). apply (am_label u32_rust calc_gi "P" _ _ [] [] []); [now apply product_means|constructor].
Qed.

Lemma calc_sound ts v : input_means u32_rust calc_gi ts v -> exists text n, ts = raws text /\ calculates text n /\ v = RUser n.
Proof.
  intros H. apply (input_rules u32_rust calc_gi calc_means _ _ calc_rules) in H. destruct H as (r & Hr & H). injection Hr as <-.
  destruct H as (ps & H1 & -> & ->). exists (sum_text ps), (wrap (sum_value ps)). split; [reflexivity|]. split; [exists ps; auto|reflexivity].
Qed.

Lemma raws_inj : forall l l', raws l = raws l' -> l = l'.
Proof. apply map_inj. congruence. Qed.

Lemma calc_iff text v : input_means u32_rust calc_gi (raws text) v <-> exists n, calculates text n /\ v = RUser n.
Proof.
  split.
  - intros H. apply calc_sound in H. destruct H as (t & n & E & H1 & H2). apply raws_inj in E. subst t. eauto.
  - intros (n & (ps & H1 & -> & ->) & ->). eexists.
    exists [num_val (sum_value ps)]. split; [reflexivity|]. split; [|exact (value0 _)].
    rewrite <- (app_nil_r (raws (sum_text ps))). apply (am_label u32_rust calc_gi "A" _ _ [] [] []); [now apply sum_means|constructor].
Qed.

(** ** A text is a sum in one way *)
Section JoinInj.
Context {X : Type}.
Variable sep : X.
Lemma app_sep l l' r r' : ~ In sep l -> ~ In sep l' -> l ++ sep :: r = l' ++ sep :: r' -> l = l' /\ r = r'.
Proof.
  revert l'. induction l as [|a l IH]; intros [|b l'] H H' E; cbn in *.
  - injection E as ->. auto.
  - injection E as <- _. tauto.
  - injection E as -> _. tauto.
  - injection E as -> E. destruct (IH l') as (-> & ->); auto.
Qed.
Lemma join_inj ls : forall ls', Forall (fun l => ~ In sep l) ls -> Forall (fun l => ~ In sep l) ls' -> ls <> [] -> ls' <> [] -> join sep ls = join sep ls' -> ls = ls'.
Proof.
  induction ls as [|l ls IH]; intros [|l' ls'] F F' N N' E; try congruence. inversion F as [|? ? F1 F2]. inversion F' as [|? ? F1' F2']. subst.
  destruct ls as [|l2 ls], ls' as [|l2' ls'].
  - cbn in E. congruence.
  - exfalso. apply F1. cbn in E. rewrite E. apply in_or_app. right. now left.
  - exfalso. apply F1'. cbn in E. rewrite <- E. apply in_or_app. right. now left.
  - change (l ++ sep :: join sep (l2 :: ls) = l' ++ sep :: join sep (l2' :: ls')) in E. apply app_sep in E; auto. destruct E as (-> & E).
    f_equal. apply IH; auto; discriminate.
Qed.
Lemma not_in_join a ls : a <> sep -> Forall (fun l => ~ In a l) ls -> ~ In a (join sep ls).
Proof.
  intros Ha. induction 1 as [|l ls Hl Hls IH]; [tauto|]. destruct ls as [|l2 ls]; [exact Hl|].
  change (~ In a (l ++ sep :: join sep (l2 :: ls))). rewrite in_app_iff. intros [H|[H|H]]; [tauto|congruence|tauto].
Qed.
End JoinInj.

Lemma number_chars ds c : is_number ds -> In c (number_text ds) -> (48 <= c)%N.
Proof. intros _ H. unfold number_text in H. apply in_map_iff in H. destruct H as (d & <- & _). unfold digit_char. lia. Qed.

Lemma Forall_map' {X Y} (f : X -> Y) (P : Y -> Prop) l : Forall (fun x => P (f x)) l -> Forall P (map f l).
Proof. induction 1; constructor; auto. Qed.
Lemma Forall_weaken {X} (P Q : X -> Prop) l : (forall x, P x -> Q x) -> Forall P l -> Forall Q l.
Proof. induction 2; constructor; auto. Qed.

Lemma map_inj_on {X Y} (f : X -> Y) (P : X -> Prop) : (forall x y, P x -> P y -> f x = f y -> x = y) -> forall l l', Forall P l -> Forall P l' -> map f l = map f l' -> l = l'.
Proof.
  intros Hf. induction l as [|x l IH]; intros [|y l'] F F' H; try discriminate; [reflexivity|]. inversion F. inversion F'. subst. cbn in H. injection H as E1 E2. f_equal; auto.
Qed.

Lemma product_text_inj ns ns' : is_product ns -> is_product ns' -> product_text ns = product_text ns' -> ns = ns'.
Proof.
  intros (N & F) (N' & F') E. unfold product_text in E. apply join_inj in E.
  - apply (map_inj _) in E; [exact E|]. intros x y. unfold number_text. apply map_inj. unfold digit_char. intros a b H. lia.
  - apply Forall_map'. eapply Forall_weaken; [|exact F]. intros n Hn Hin. apply number_chars in Hin; [|exact Hn]. lia.
  - apply Forall_map'. eapply Forall_weaken; [|exact F']. intros n Hn Hin. apply number_chars in Hin; [|exact Hn]. lia.
  - destruct ns; [congruence|discriminate].
  - destruct ns'; [congruence|discriminate].
Qed.

Lemma plus_not_in p : is_product p -> ~ In 43%N (product_text p).
Proof.
  intros (N & F). apply not_in_join; [discriminate|]. apply Forall_map'. eapply Forall_weaken; [|exact F]. intros n Hn Hin. apply number_chars in Hin; [|exact Hn]. lia.
Qed.

Lemma sum_text_inj ps ps' : is_sum ps -> is_sum ps' -> sum_text ps = sum_text ps' -> ps = ps'.
Proof.
  intros (N & F) (N' & F') E. unfold sum_text in E. apply join_inj in E.
  - apply (map_inj_on _ is_product) in E; auto. exact product_text_inj.
  - apply Forall_map'. eapply Forall_weaken; [|exact F]. exact plus_not_in.
  - apply Forall_map'. eapply Forall_weaken; [|exact F']. exact plus_not_in.
  - destruct ps; [congruence|discriminate].
  - destruct ps'; [congruence|discriminate].
Qed.

Lemma calculates_one text n n' : calculates text n -> calculates text n' -> n = n'.
Proof.
  intros (ps & H1 & -> & ->) (ps' & H1' & E & ->). apply sum_text_inj in E; auto. now subst.
Qed.
