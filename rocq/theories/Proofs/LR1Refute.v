(** Grammars on which acceptance and being LR(1) differ. *)
From Coq Require Import Arith Bool String NArith List Lia.
From Verif Require Import Base.Prelude Spec.Grammar Spec.Validity Spec.Nullable Spec.Observers Model.Error.
From Verif Require Import Model.BitSet Model.Vocabulary Model.IndexedGrammar Model.FirstMap Model.LRTable Model.ParseSimulator.
From Verif Require Import Proofs.Fuel Proofs.Refutations Proofs.IndexedFinal.
From Verif Require Import Spec.LR1 Proofs.LR1Proofs Proofs.LR1Final.
Import ListNotations.
Open Scope string_scope.

Lemma built_valid (bm : BuildMode) fuel (g : G) p : parser_new fuel g = Ok p -> valid_grammar g.
Proof. intros Hp. unfold parser_new in Hp. destruct (indexed_build fuel g) as [ig|?|?|] eqn:Hig; try discriminate. eapply build_indexes; eauto. Qed.

(** Every rule of a list derives something, checked with a tree per rule. *)
Lemma productive_ok (g : G) (f : nat -> tree string) n :
  forallb (fun i => match nth_error g i with Some r => match check g n [nt (symbol r)] [f i] with Some _ => true | None => false end | None => true end)
    (seq 0 (List.length g)) = true -> productive g.
Proof.
  rewrite forallb_forall. intros Hf r Hr. apply In_nth_error in Hr as (i & Hi).
  specialize (Hf i). rewrite Hi in Hf. destruct (check g n [nt (symbol r)] [f i]) as [w|] eqn:Hc.
  - exists w, [f i]. eapply check_ok; eauto.
  - discriminate Hf. apply in_seq. split; [lia|]. simpl. apply nth_error_Some. congruence.
Qed.

(** The ambiguous grammar accepted because of the FIRST bug is not LR(1). *)
Lemma ambig_productive : productive g_ambig.
Proof.
  apply (productive_ok _ (fun i => nth i [Node 0 [Node 1 [Node 3 []; Node 5 [Node 6 []; Leaf "c"]]];
    Node 1 [Node 3 []; Node 5 [Node 6 []; Leaf "c"]]; Node 2 [Node 4 []; Node 5 [Node 6 []; Leaf "c"]];
    Node 3 []; Node 4 []; Node 5 [Node 6 []; Leaf "c"]; Node 6 []] (Leaf "")) 10). vm_compute. reflexivity.
Qed.

Section Ambiguous.
Context {T : Type} (c : T).
Local Notation prod l := (@Production T string l).
Local Notation term a := (@Terminal T string (Token a)).
Definition ambiguous : grammar T string := [mk_rule "S" [prod "T"]; mk_rule "T" [prod "X"; prod "A"]; mk_rule "T" [prod "Y"; prod "A"];
  mk_rule "X" [Terminal Epsilon]; mk_rule "Y" [Terminal Epsilon]; mk_rule "A" [prod "B"; term c]; mk_rule "B" [Terminal Epsilon]].

Lemma ambig_begins a : begins ambiguous ([prod "A"] ++ [Terminal a]) (Token c).
Proof.
  apply begins_iff. apply (fst_of_app_l ambiguous [prod "A"]).
  apply (fst_here ambiguous (mk_rule "A" [prod "B"; term c])); [simpl; tauto|]. simpl.
  apply fst_null; [|apply fst_tok; discriminate]. apply vanishes_iff. exists [Node 6 []].
  apply (derives_production ambiguous 6 (mk_rule "B" [Terminal Epsilon]) [] [] [] [] []); repeat constructor.
Qed.

Lemma ambig_not_lr1 : ~ lr1_grammar ambiguous.
Proof.
  intros (Hc & _).
  assert (Hs : forall i r, i = 1 \/ i = 2 -> nth_error ambiguous i = Some r -> lr1_item ambiguous [] i 0 EndOfStream).
  { intros i r Hi Hr. eapply (lr1_closure _ [] 0 0 EndOfStream i r); [constructor| |exact Hr|].
    - destruct Hi as [-> | ->]; injection Hr as <-; reflexivity.
    - split; [discriminate|]. eexists. constructor. }
  assert (Hd : 3 = 4); [|discriminate]. apply (Hc [] 3 4 (Token c)).
  - exists 0. split; [|reflexivity]. eapply (lr1_closure _ [] 1 0 EndOfStream); [eapply Hs; [auto|reflexivity]| |reflexivity|apply ambig_begins]. reflexivity.
  - exists 0. split; [|reflexivity]. eapply (lr1_closure _ [] 2 0 EndOfStream); [eapply Hs; [auto|reflexivity]| |reflexivity|apply ambig_begins]. reflexivity.
Qed.
End Ambiguous.

Lemma accepted_not_lr1 (bm : BuildMode) : exists (g : G) p, no_eos g /\ eps_trailing g /\ productive g /\ valid_grammar g /\
  (forall r, nth_error g 0 = Some r -> ~ uses r (symbol r)) /\ parser_new 50 g = Ok p /\ ~ lr1_grammar g.
Proof.
  assert (Hp : exists p, parser_new 50 g_ambig = Ok p) by (apply builds_ok; destruct bm; vm_compute; reflexivity).
  destruct Hp as (p & Hp). exists g_ambig, p. split; [apply no_eos_ok; reflexivity|]. split; [apply eps_trailing_ok; reflexivity|].
  split; [apply ambig_productive|]. split; [eapply built_valid; eauto|].
  split; [|split; [auto|exact (ambig_not_lr1 "c")]]. intros r Hr. injection Hr as <-. intros [Hx|[]]; discriminate.
Qed.

(** [S -> T; T -> A U | B t; A -> t x; B -> !; U -> U c]: nothing derives from
    [U], so textbook LR(1) never expects [A]; the code does, and reports a
    conflict. *)
Section Unproductive.
Context {T : Type} (t x c : T).
Local Notation prod l := (@Production T string l).
Local Notation term a := (@Terminal T string (Token a)).
Definition unproductive : grammar T string := [mk_rule "S" [prod "T"]; mk_rule "T" [prod "A"; prod "U"]; mk_rule "T" [prod "B"; term t];
  mk_rule "A" [term t; term x]; mk_rule "B" [Terminal Epsilon]; mk_rule "U" [prod "U"; term c]].

Lemma unprod_derives ns w ts : derives unproductive ns w ts -> ~ In (prod "U") ns.
Proof.
  induction 1 as [|tok ns w ts D IH|ns w ts D IH|i r ts1 w1 ns w2 ts2 Hi D1 IH1 D2 IH2]; [tauto|intros [Hx|Hx]; [discriminate|auto]..|].
  intros [Hx|Hx]; [|auto]. injection Hx as Hx. apply nth_error_In in Hi. simpl in Hi.
  repeat (destruct Hi as [<-|Hi]; [try discriminate Hx|]); [|contradiction]. apply IH1. simpl. auto.
Qed.

Lemma unprod_vanishes ns : vanishes unproductive (prod "U" :: ns) -> False.
Proof. intros Hv. apply vanishes_iff in Hv as (ts & D). apply unprod_derives in D. apply D. simpl; auto. Qed.

Lemma unprod_fst ns a : fst_of unproductive ns a -> hd_error ns = Some (prod "U") -> False.
Proof.
  induction 1 as [a ns Ha|ns a Hf IH|l ns a Hv Hf IH|r ns a Hr Hf IH]; simpl; intros Hx; try discriminate.
  - injection Hx as ->. eapply unprod_vanishes; eauto.
  - injection Hx as Hx. simpl in Hr. repeat (destruct Hr as [<-|Hr]; [try discriminate Hx|]); [|contradiction]. apply IH. reflexivity.
Qed.

Definition unprod_items (γ : list (node T string)) (i p : nat) (a : aug T) : Prop :=
  (γ = [] /\ i = 0 /\ p = 0 /\ a = EndOfStream) \/ (γ = [] /\ i = 1 /\ p = 0 /\ a = EndOfStream) \/
  (γ = [] /\ i = 2 /\ p = 0 /\ a = EndOfStream) \/ (γ = [] /\ i = 4 /\ p = 0 /\ a = Token t) \/
  (γ = [prod "T"] /\ i = 0 /\ p = 1 /\ a = EndOfStream) \/ (γ = [prod "B"] /\ i = 2 /\ p = 1 /\ a = EndOfStream) \/
  (γ = [prod "B"; term t] /\ i = 2 /\ p = 2 /\ a = EndOfStream) \/
  (γ = [prod "A"] /\ i = 1 /\ p = 1 /\ a = EndOfStream) \/
  (γ = [prod "A"] /\ i = 5 /\ p = 0 /\ (a = EndOfStream \/ a = Token c)) \/
  (γ = [prod "A"; prod "U"] /\ i = 1 /\ p = 2 /\ a = EndOfStream) \/
  (γ = [prod "A"; prod "U"] /\ i = 5 /\ p = 1 /\ (a = EndOfStream \/ a = Token c)) \/
  (γ = [prod "A"; prod "U"; term c] /\ i = 5 /\ p = 2 /\ (a = EndOfStream \/ a = Token c)).

Lemma begins_tok_only (g : grammar T string) b ns a : b <> Epsilon -> begins g (Terminal b :: ns) a -> a = b.
Proof. intros Hb Hx. apply begins_iff in Hx. inversion Hx; subst; auto. congruence. Qed.

Lemma unprod_inv γ i p a : lr1_item unproductive γ i p a -> unprod_items γ i p a.
Proof.
  induction 1 as [|γ i p a j r b Hi IH Hn Hj Hb|γ i p a X Hi IH Hn].
  - left. auto.
  - repeat (destruct IH as [IH|IH]); destruct IH as (-> & -> & -> & Ha); simpl in Hn; try discriminate Hn;
      injection Hn as Hn; 
      (destruct j as [|[|[|[|[|[|j]]]]]]; [..|destruct j; discriminate Hj]);
      injection Hj as <-; try discriminate Hn; simpl in Hb.
    all: unfold after in Hb; simpl in Hb.
    + apply begins_tok_only in Hb; [|subst; discriminate]. subst. unfold unprod_items. tauto.
    + apply begins_tok_only in Hb; [|subst; discriminate]. subst. unfold unprod_items. tauto.
    + exfalso. apply begins_iff in Hb. eapply unprod_fst; [exact Hb|reflexivity].
    + apply begins_tok_only in Hb; [|discriminate]. subst. unfold unprod_items. tauto.
    + apply begins_tok_only in Hb; [|subst; discriminate]. subst. unfold unprod_items. tauto.
    + apply begins_tok_only in Hb; [|discriminate]. subst. unfold unprod_items. tauto.
  - repeat (destruct IH as [IH|IH]); destruct IH as (-> & -> & -> & Ha); simpl in Hn; try discriminate Hn;
      injection Hn as <-; unfold unprod_items; simpl; tauto.
Qed.

Lemma unprod_lr1 : lr1_grammar unproductive.
Proof.
  split.
  - intros γ i j a (p & Hi & Hp) (q & Hj & Hq). apply unprod_inv in Hi, Hj.
    repeat (destruct Hi as [Hi|Hi]); destruct Hi as (-> & -> & -> & Ha); try discriminate Hp;
      repeat (destruct Hj as [Hj|Hj]); destruct Hj as (Hg & -> & -> & Hb); try discriminate Hq; try discriminate Hg; auto.
  - intros γ i a (p & Hi & Hp) (j & q & b & Hj & Hq). apply unprod_inv in Hi, Hj.
    repeat (destruct Hi as [Hi|Hi]); destruct Hi as (-> & -> & -> & Ha); try discriminate Hp;
      repeat (destruct Hj as [Hj|Hj]); destruct Hj as (Hg & -> & -> & Hb); try discriminate Hq; try discriminate Hg; auto;
      injection Hq as <-; discriminate Ha.
Qed.
End Unproductive.
Definition g_unprod : G := unproductive "t" "x" "c".

Lemma lr1_not_accepted (bm : BuildMode) : exists (g : G) ig e, no_eos g /\ eps_trailing g /\ direct_epsilon g /\ valid_grammar g /\
  (forall r, nth_error g 0 = Some r -> ~ uses r (symbol r)) /\ lr1_grammar g /\
  indexed_build 50 g = Ok ig /\ table_build ig 50 = Err e.
Proof.
  exists g_unprod. assert (Hx : exists ig e, indexed_build 50 g_unprod = Ok ig /\ table_build ig 50 = Err e).
  { destruct (indexed_build 50 g_unprod) as [ig| | |] eqn:Hig; [|destruct bm; vm_compute in Hig; discriminate Hig..].
    exists ig. destruct (table_build ig 50) as [t|e| |] eqn:Ht; [|exists e; auto| |];
      exfalso; clear -Hig Ht; destruct bm; vm_compute in Hig; injection Hig as <-; vm_compute in Ht; discriminate. }
  destruct Hx as (ig & e & Hig & He). exists ig, e. split; [apply no_eos_ok; reflexivity|]. split; [apply eps_trailing_ok; reflexivity|].
  split. { apply (direct_b_ok _ ["B"]). vm_compute. reflexivity. }
  split; [eapply build_indexes; eauto|].
  split. { intros r Hr. injection Hr as <-. intros [Hx|[]]; discriminate. }
  split; [apply unprod_lr1|]. split; auto.
Qed.

Lemma lr1_no_genuine (g : G) ig e : lr1_grammar g -> ~ genuine ig (reduces g) (shifts g) e.
Proof.
  intros (H1 & H2) Hx. destruct e; simpl in Hx; try tauto.
  - destruct Hx as (γ & i & _ & Hs & Hr). eapply H2; eauto.
  - destruct Hx as (γ & i1 & i2 & _ & _ & Hn & Hr1 & Hr2). apply Hn. eapply H1; eauto.
Qed.

Lemma conflict_not_genuine (bm : BuildMode) : exists (g : G) ig e, no_eos g /\ eps_trailing g /\ valid_grammar g /\
  indexed_build 50 g = Ok ig /\ table_build ig 50 = Err e /\ ~ genuine ig (reduces g) (shifts g) e.
Proof.
  destruct (lr1_not_accepted bm) as (g & ig & e & H1 & H2 & _ & H3 & _ & H4 & H5 & H6). exists g, ig, e.
  repeat (split; [assumption|]). apply lr1_no_genuine; auto.
Qed.

(** [S -> T; T -> ! a c | U a; U -> a]: with the epsilon node in front of [a] the
    code sees [a] again after [a]. *)
Definition g_spurious : G := [mk_rule "S" [nt "T"]; mk_rule "T" [eps; tk "a"; tk "c"]; mk_rule "T" [nt "U"; tk "a"]; mk_rule "U" [tk "a"]].

Definition spurious_items (γ : list (node string string)) (i p : nat) (a : aug string) : Prop :=
  (γ = [] /\ i = 0 /\ p = 0 /\ a = EndOfStream) \/ (γ = [] /\ i = 1 /\ p = 0 /\ a = EndOfStream) \/
  (γ = [] /\ i = 2 /\ p = 0 /\ a = EndOfStream) \/ (γ = [] /\ i = 3 /\ p = 0 /\ a = Token "a") \/
  (γ = [nt "T"] /\ i = 0 /\ p = 1 /\ a = EndOfStream) \/ (γ = [tk "a"] /\ i = 1 /\ p = 1 /\ a = EndOfStream) \/
  (γ = [tk "a"; tk "c"] /\ i = 1 /\ p = 2 /\ a = EndOfStream) \/ (γ = [nt "U"] /\ i = 2 /\ p = 1 /\ a = EndOfStream) \/
  (γ = [nt "U"; tk "a"] /\ i = 2 /\ p = 2 /\ a = EndOfStream) \/ (γ = [tk "a"] /\ i = 3 /\ p = 1 /\ a = Token "a").

Lemma spurious_inv γ i p a : lr1_item g_spurious γ i p a -> spurious_items γ i p a.
Proof.
  induction 1 as [|γ i p a j r b Hi IH Hn Hj Hb|γ i p a X Hi IH Hn].
  - left. auto.
  - repeat (destruct IH as [IH|IH]); destruct IH as (-> & -> & -> & Ha); simpl in Hn; try discriminate Hn;
      injection Hn as Hn;
      (destruct j as [|[|[|[|j]]]]; [..|destruct j; discriminate Hj]);
      injection Hj as <-; try discriminate Hn; simpl in Hb; unfold after in Hb; simpl in Hb;
      (apply begins_tok_only in Hb; [|subst; discriminate]); subst; unfold spurious_items; tauto.
  - repeat (destruct IH as [IH|IH]); destruct IH as (-> & -> & -> & Ha); simpl in Hn; try discriminate Hn;
      injection Hn as <-; unfold spurious_items; simpl; tauto.
Qed.

Lemma spurious_lr1 : lr1_grammar g_spurious.
Proof.
  split.
  - intros γ i j a (p & Hi & Hp) (q & Hj & Hq). apply spurious_inv in Hi, Hj.
    repeat (destruct Hi as [Hi|Hi]); destruct Hi as (-> & -> & -> & Ha); try discriminate Hp;
      repeat (destruct Hj as [Hj|Hj]); destruct Hj as (Hg & -> & -> & Hb); try discriminate Hq; try discriminate Hg; auto.
  - intros γ i a (p & Hi & Hp) (j & q & b & Hj & Hq). apply spurious_inv in Hi, Hj.
    repeat (destruct Hi as [Hi|Hi]); destruct Hi as (-> & -> & -> & Ha); try discriminate Hp;
      repeat (destruct Hj as [Hj|Hj]); destruct Hj as (Hg & -> & -> & Hb); try discriminate Hq; try discriminate Hg; auto;
      injection Hq as <-; discriminate Ha.
Qed.

Lemma spurious_productive : productive g_spurious.
Proof.
  apply (productive_ok _ (fun i => nth i [Node 0 [Node 1 [Leaf "a"; Leaf "c"]]; Node 1 [Leaf "a"; Leaf "c"];
    Node 2 [Node 3 [Leaf "a"]; Leaf "a"]; Node 3 [Leaf "a"]] (Leaf "")) 10). vm_compute. reflexivity.
Qed.

Lemma spurious_conflict (bm : BuildMode) : exists (g : G) ig e, no_eos g /\ productive g /\ valid_grammar g /\
  indexed_build 50 g = Ok ig /\ table_build ig 50 = Err e /\ ~ genuine ig (reduces g) (shifts g) e.
Proof.
  exists g_spurious. assert (Hx : exists ig e, indexed_build 50 g_spurious = Ok ig /\ table_build ig 50 = Err e).
  { destruct (indexed_build 50 g_spurious) as [ig| | |] eqn:Hig; [|destruct bm; vm_compute in Hig; discriminate Hig..].
    exists ig. destruct (table_build ig 50) as [t|e| |] eqn:Ht; [|exists e; auto| |];
      exfalso; clear -Hig Ht; destruct bm; vm_compute in Hig; injection Hig as <-; vm_compute in Ht; discriminate. }
  destruct Hx as (ig & e & Hig & He). exists ig, e. split; [apply no_eos_ok; reflexivity|]. split; [apply spurious_productive|].
  split; [eapply build_indexes; eauto|]. split; [auto|]. split; [auto|]. apply lr1_no_genuine, spurious_lr1.
Qed.

(** The FIRST table of [g_first] lacks "c" in FIRST(A). *)
Lemma first_incomplete (bm : BuildMode) : exists (g : G) ig F l a, no_eos g /\ eps_trailing g /\ productive g /\ indexed_build 50 g = Ok ig /\
  first_build (E := lr_error string string) 50 ig = Ok F /\ begins g [Production l] a /\ ~ first_has ig F l a.
Proof.
  exists g_first. destruct (indexed_build 50 g_first) as [ig| | |] eqn:Hig; [|destruct bm; vm_compute in Hig; discriminate Hig..].
  exists ig. destruct (first_build (E := lr_error string string) 50 ig) as [F| | |] eqn:HF;
    [|destruct bm; vm_compute in Hig; injection Hig as <-; vm_compute in HF; discriminate HF..].
  exists F, "A", (Token "c"). split; [apply no_eos_ok; reflexivity|]. split; [apply eps_trailing_ok; reflexivity|].
  split. { apply (productive_ok _ (fun i => nth i [t_first; Node 1 [Node 2 []; Leaf "c"]; Node 2 []] (Leaf "")) 10). vm_compute. reflexivity. }
  split; [auto|]. split; [auto|]. split.
  - apply begins_iff. apply (fst_here g_first (mk_rule "A" [nt "B"; tk "c"])); [simpl; tauto|]. simpl.
    apply fst_null; [|apply fst_tok; discriminate]. apply vanishes_iff. exists [Node 2 []].
    apply (derives_production g_first 2 (mk_rule "B" [eps]) [] [] [] [] []); repeat constructor.
  - intros (k & i & s & Hk & Hi & Hs & Hm).
    destruct bm; vm_compute in Hig; injection Hig as <-; vm_compute in HF; injection HF as <-;
      vm_compute in Hi; injection Hi as <-;
      (destruct k as [|[|[|k]]]; try (vm_compute in Hk; discriminate); [vm_compute in Hs; injection Hs as <-; vm_compute in Hm; discriminate|destruct k; discriminate Hk]).
Qed.

(** Grammars meeting the hypotheses of the theorems: the dangling else, and the
    optional lists of [Refutations]. *)
Definition dangling : G := [mk_rule "P" [nt "S"]; mk_rule "S" [tk "i"; nt "S"; tk "e"; nt "S"]; mk_rule "S" [tk "i"; nt "S"]; mk_rule "S" [tk "x"]].

Lemma dangling_ok : eps_trailing dangling /\ productive dangling /\ direct_epsilon dangling /\
  (forall r, nth_error dangling 0 = Some r -> ~ uses r (symbol r)) /\
  exists ig, indexed_build (bm := true) 50 dangling = Ok ig /\ table_build (bm := true) ig 50 = Err (ShiftReduceConflict 2 (Token "e")) /\ rule_of ig 2 2.
Proof.
  split; [apply eps_trailing_ok; reflexivity|].
  split. { apply (productive_ok _ (fun i => nth i [Node 0 [Node 3 [Leaf "x"]]; Node 3 [Leaf "x"]; Node 3 [Leaf "x"]; Node 3 [Leaf "x"]] (Leaf "")) 10). vm_compute. reflexivity. }
  split; [apply (direct_b_ok _ []); reflexivity|].
  split. { intros r Hr. injection Hr as <-. intros [Hx|[]]; discriminate. }
  destruct (indexed_build (bm := true) 50 dangling) as [ig| | |] eqn:Hig; [|vm_compute in Hig; discriminate Hig..]. exists ig.
  vm_compute in Hig. injection Hig as <-. split; [reflexivity|]. split; [vm_compute; reflexivity|]. eexists. split; reflexivity.
Qed.

Lemma opt_list_productive : productive opt_list.
Proof.
  apply (productive_ok _ (fun i => nth i [Node 0 [Node 1 []; Node 3 []]; Node 1 []; Node 2 [Leaf "a"; Node 1 []]; Node 3 []; Node 4 [Leaf "("; Node 1 []; Leaf ")"]] (Leaf "")) 10). vm_compute. reflexivity.
Qed.

Lemma opt_list_root : forall r, nth_error opt_list 0 = Some r -> ~ uses r (symbol r).
Proof. intros r Hr. injection Hr as <-. intros [Hx|[Hx|[]]]; discriminate. Qed.

Lemma opt_list_first (bm : BuildMode) : exists ig F, indexed_build 50 opt_list = Ok ig /\
  first_build (E := lr_error string string) 50 ig = Ok F /\ first_has ig F "S" (Token "(") /\ first_has ig F "L" Epsilon.
Proof.
  destruct (indexed_build 50 opt_list) as [ig| | |] eqn:Hig; [|destruct bm; vm_compute in Hig; discriminate Hig..].
  destruct (first_build (E := lr_error string string) 50 ig) as [F| | |] eqn:HF;
    [|destruct bm; vm_compute in Hig; injection Hig as <-; vm_compute in HF; discriminate HF..].
  exists ig, F. split; auto. split; auto. destruct opt_list_ok as (_ & _ & Hd & _).
  pose proof (direct_first_complete _ Hd _ _ _ Hig HF) as Hc. split.
  - apply Hc. apply begins_iff. apply (fst_here opt_list (mk_rule "S" [nt "L"; nt "M"])); [simpl; tauto|]. simpl.
    apply fst_null; [|apply (fst_here opt_list (mk_rule "M" [tk "("; nt "L"; tk ")"])); [simpl; tauto|apply fst_tok; discriminate]].
    apply vanishes_iff. exists [Node 1 []].
    apply (derives_production opt_list 1 (mk_rule "L" [eps]) [] [] [] [] []); repeat constructor.
  - apply Hc. apply vanishes_iff. exists [Node 1 []].
    apply (derives_production opt_list 1 (mk_rule "L" [eps]) [] [] [] [] []); repeat constructor.
Qed.
