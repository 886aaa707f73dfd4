(** An abstract LR machine run by a finished table.  Its stack carries, with
    each state, the symbol shifted or reduced to and the parse tree of it. *)
From Coq Require Import Arith Bool String NArith List Lia Permutation.
From Verif Require Import Base.Prelude Spec.Grammar Model.Error.
From Verif Require Import Model.BitSet Model.FixedMap Model.Vocabulary Model.IndexedGrammar Model.FirstMap.
From Verif Require Import Model.Position Model.Closure Model.LRTable.
From Verif Require Import Proofs.WP Proofs.BitSetProofs Proofs.FixedMapProofs Proofs.VocabProofs.
From Verif Require Import Proofs.IndexedProofs Proofs.IndexedBuild Proofs.IndexedMain Proofs.FirstProofs.
From Verif Require Import Proofs.ClosureProofs Proofs.ItemSets Proofs.TableProofs Proofs.TableBuild.
Import ListNotations.

Definition strip {T L} (ns : list (node T L)) : list (node T L) := filter (fun nd => negb (is_epsilon nd)) ns.

Lemma strip_app {T L} (a b : list (node T L)) : strip (a ++ b) = strip a ++ strip b.
Proof. apply filter_app. Qed.

Lemma strip_firstn {T L} (l : list (node T L)) p : strip (skipn p l) = [] -> strip (firstn p l) = strip l.
Proof. intros Hs. rewrite <- (firstn_skipn p l) at 2. rewrite strip_app, Hs, app_nil_r. reflexivity. Qed.

(** Derivations. *)
Lemma derives_app {T L} (g : grammar T L) ns1 w1 ts1 ns2 w2 ts2 :
  derives g ns1 w1 ts1 -> derives g ns2 w2 ts2 -> derives g (ns1 ++ ns2) (w1 ++ w2) (ts1 ++ ts2).
Proof.
  intros D1 D2. induction D1; simpl; auto; try (constructor; auto; fail).
  rewrite <- app_assoc. econstructor; eauto.
Qed.

Lemma derives_app_inv {T L} (g : grammar T L) ns1 ns2 w ts : derives g (ns1 ++ ns2) w ts ->
  exists w1 w2 ts1 ts2, w = w1 ++ w2 /\ ts = ts1 ++ ts2 /\ derives g ns1 w1 ts1 /\ derives g ns2 w2 ts2.
Proof.
  revert w ts. induction ns1 as [|nd ns1 IH]; intros w ts D; simpl in D.
  - exists [], w, [], ts. split; auto. split; auto. split; auto. constructor.
  - inversion D as [|t ns' w' ts' D'|ns' w' ts' D'|i r t1 w1 ns' w2 t2 Hi D1 D2]; subst;
    [destruct (IH _ _ D') as (u1 & u2 & s1 & s2 & -> & -> & E1 & E2)..|destruct (IH _ _ D2) as (u1 & u2 & s1 & s2 & -> & -> & E1 & E2)].
    + exists (t :: u1), u2, (Leaf t :: s1), s2. split; auto. split; auto. split; auto. constructor; auto.
    + exists u1, u2, s1, s2. split; auto. split; auto. split; auto. constructor; auto.
    + exists (w1 ++ u1), u2, (Node i t1 :: s1), s2. rewrite app_assoc. split; auto. split; auto. split; auto. econstructor; eauto.
Qed.

Lemma derives_strip {T L} (g : grammar T L) ns w ts : derives g (strip ns) w ts <-> derives g ns w ts.
Proof.
  revert w ts. induction ns as [|nd ns IH]; intros w ts; simpl; [tauto|].
  destruct nd as [[t| |]|l]; simpl.
  - split; intros D; inversion D; subst; constructor; apply IH; auto.
  - rewrite IH. split; intros D; [constructor; auto|inversion D; auto].
  - split; intros D; inversion D.
  - split; intros D; inversion D; subst; econstructor; eauto; apply IH; auto.
Qed.

Lemma derives_all_eps {T L} (g : grammar T L) ns w ts : Forall (fun nd => nd = Terminal Epsilon) ns ->
  derives g ns w ts -> w = [] /\ ts = [].
Proof.
  intros Hf D. induction D; auto; inversion Hf; subst; try discriminate; auto.
Qed.

Lemma firstn_app_rev {A} (l1 l2 : list A) k : k = length l1 -> firstn k (l1 ++ l2) = l1 /\ skipn k (l1 ++ l2) = l2.
Proof.
  intros ->. split; [rewrite firstn_app, Nat.sub_diag, firstn_all; simpl; apply app_nil_r|].
  rewrite skipn_app, Nat.sub_diag, skipn_all. reflexivity.
Qed.

Section Machine.
Context {T L : Type} `{EqDec T}.
Variable g : indexed_grammar T L.
Hypothesis Hwf : wf_ig g.
Hypothesis Heos : no_eos (igram g).
Hypothesis Heps : eps_trailing (igram g).
Variable F : first_table.
Hypothesis HF : FInv g F.
Variable t : lr_table.
Variable ks : list kernel.
Variable acts : nat -> aug nat -> option action.
Variable gts : nat -> nat -> option nat.
Hypothesis Hok : table_ok g F t ks acts gts.

Local Notation rnodes := (rnodes g).
Local Notation nextn := (nextn g).
Local Notation nextl := (nextl g).
Local Notation rsym := (rsym g).
Local Notation core := (core g).
Local Notation look := (look g F).
Local Notation G := (igram g).

Lemma igram_rnodes i r : nth_error (rules g) i = Some r -> rnodes i = irhs r.
Proof. unfold ClosureProofs.rnodes. intros ->. reflexivity. Qed.

Lemma rnodes_in i nd : In nd (rnodes i) -> exists r, nth_error (rules g) i = Some r /\ In nd (irhs r).
Proof. unfold ClosureProofs.rnodes. destruct (nth_error (rules g) i) as [r|]; [eauto|intros []]. Qed.

Lemma eps_rest i ns1 ns2 : rnodes i = ns1 ++ Terminal Epsilon :: ns2 -> Forall (fun nd => nd = Terminal Epsilon) ns2.
Proof.
  intros Hr. apply Forall_forall. intros nd Hnd. unfold ClosureProofs.rnodes in Hr.
  destruct (nth_error (rules g) i) as [r|] eqn:Hi; [|destruct ns1; discriminate].
  eapply (Heps (irule r)); eauto. apply in_map. eapply nth_error_In; eauto.
Qed.

Lemma eps_skipn i p ns : skipn p (rnodes i) = Terminal Epsilon :: ns -> Forall (fun nd => nd = Terminal Epsilon) ns.
Proof.
  intros Hs. apply (eps_rest i (firstn p (rnodes i))). rewrite <- Hs. symmetry. apply firstn_skipn.
Qed.

Lemma no_eos_rnodes i : ~ In (Terminal EndOfStream) (rnodes i).
Proof.
  intros Hi. apply rnodes_in in Hi as (r & Hr & Hi). apply (Heos (irule r)); auto. apply in_map. eapply nth_error_In; eauto.
Qed.

Lemma nextn_iff i p X : nextn i p = Some X <-> exists ns, skipn p (rnodes i) = X :: ns /\ is_epsilon X = false.
Proof.
  unfold ClosureProofs.nextn. split.
  - intros Hf. destruct (skipn p (rnodes i)) as [|nd ns] eqn:Hs; [discriminate|]. simpl in Hf.
    destruct (is_epsilon nd) eqn:He; simpl in Hf.
    + exfalso. destruct nd as [[| |]|]; try discriminate. apply eps_skipn in Hs. apply find_some in Hf as (Hi & Hx).
      rewrite Forall_forall in Hs. specialize (Hs _ Hi). subst X. discriminate.
    + injection Hf as <-. eauto.
  - intros (ns & -> & He). simpl. rewrite He. reflexivity.
Qed.

Lemma nextl_iff i p l : nextl i p = Some l <-> exists ns, skipn p (rnodes i) = Production l :: ns.
Proof.
  unfold ClosureProofs.nextl. destruct (skipn p (rnodes i)) as [|[a|k] ns]; simpl; split; try discriminate.
  - intros (ns & Hx). discriminate.
  - intros (ns' & Hx). discriminate.
  - intros Hx. injection Hx as ->. eauto.
  - intros (ns' & Hx). congruence.
Qed.

Lemma nextn_nextl i p l : nextn i p = Some (Production l) <-> nextl i p = Some l.
Proof. rewrite nextn_iff, nextl_iff. split; intros (ns & Hx); [destruct Hx|]; eauto. Qed.

Lemma nextn_none i p : nextn i p = None <-> strip (skipn p (rnodes i)) = [].
Proof.
  unfold ClosureProofs.nextn, strip. induction (skipn p (rnodes i)) as [|nd ns IH]; simpl; [tauto|].
  destruct (is_epsilon nd); simpl; [auto|]. split; discriminate.
Qed.

Lemma skipn_S i p X ns : skipn p (rnodes i) = X :: ns -> skipn (p + 1) (rnodes i) = ns.
Proof. intros Hs. rewrite <- (skipn_skipn_ p 1) || idtac. rewrite Nat.add_1_r, (skipn_S_nth _ p) in *. destruct (nth_error (rnodes i) p); [congruence|discriminate]. Qed.

(** Stacks. *)
Definition entry := (nat * inode * tree nat)%type.
Definition esym (e : entry) : inode := snd (fst e).
Definition etree (e : entry) : tree nat := snd e.
Definition top (stk : list entry) : nat := match stk with [] => 0 | (s, _, _) :: _ => s end.
Definition syms (stk : list entry) : list inode := map esym stk.
Definition trees (stk : list entry) : list (tree nat) := map etree stk.

Lemma syms_app a b : syms (a ++ b) = syms a ++ syms b.
Proof. apply map_app. Qed.

Lemma trees_app a b : trees (a ++ b) = trees a ++ trees b.
Proof. apply map_app. Qed.

Inductive vstk : list entry -> Prop :=
| vs_nil : vstk []
| vs_shift stk s a tr : vstk stk -> acts (top stk) a = Some (Shift s) -> vstk ((s, Terminal a, tr) :: stk)
| vs_goto stk s l tr : vstk stk -> gts (top stk) l = Some s -> l <> 0 -> vstk ((s, Production l, tr) :: stk).

Lemma vstk_rep stk : vstk stk -> exists K, nth_error ks (top stk) = Some K /\ rep g F K (syms stk).
Proof.
  induction 1 as [|stk s a tr Hv (K & HK & HR) Ha|stk s l tr Hv (K & HK & HR) Ha Hl].
  - apply (to_root _ _ _ _ _ _ Hok).
  - destruct (to_shift _ _ _ _ _ _ Hok _ _ _ _ HK Ha) as ((K' & HK' & Hg) & _). exists K'. split; auto.
    simpl. eapply rep_step; eauto.
  - destruct (to_goto _ _ _ _ _ _ Hok _ _ _ _ HK Ha) as ((K' & HK' & Hg) & _). exists K'. split; auto.
    simpl. eapply rep_step; eauto.
Qed.

Lemma vstk_tail e stk : vstk (e :: stk) -> vstk stk.
Proof. inversion 1; auto. Qed.

Lemma vstk_app stk1 stk2 : vstk (stk1 ++ stk2) -> vstk stk2.
Proof. induction stk1; simpl; auto. intros Hv. apply vstk_tail in Hv. auto. Qed.

Lemma vstk_no0 stk : vstk stk -> ~ In (Production 0) (syms stk).
Proof. induction 1; simpl; unfold esym; simpl; [tauto|intros [|]; [discriminate|tauto]|intros [Hx|]; [congruence|tauto]]. Qed.

(** The table's entries, in terms of the items of the prefix on the stack. *)
Lemma act_shift stk a s : vstk stk -> acts (top stk) a = Some (Shift s) ->
  exists i p, core (syms stk) i p /\ nextn i p = Some (Terminal a).
Proof.
  intros Hv Ha. destruct (vstk_rep stk Hv) as (K & HK & R1 & R2).
  destruct (to_shift _ _ _ _ _ _ Hok _ _ _ _ HK Ha) as (_ & i & p & Hc & Hn). exists i, p. split; auto. apply R1; auto.
Qed.

Lemma act_reduce stk a j : vstk stk -> acts (top stk) a = Some (Reduce j) ->
  j <> 0 /\ exists p, look (syms stk) j p a /\ nextn j p = None.
Proof.
  intros Hv Ha. destruct (vstk_rep stk Hv) as (K & HK & R1 & R2).
  destruct (to_reduce _ _ _ _ _ _ Hok _ _ _ _ HK Ha) as (Hj & p & Hc & Hn). split; auto. exists p. split; auto. apply R2; auto.
Qed.

Lemma act_accept stk a : vstk stk -> acts (top stk) a = Some Accept ->
  a = EndOfStream /\ exists p, core (syms stk) 0 p /\ nextn 0 p = None.
Proof.
  intros Hv Ha. destruct (vstk_rep stk Hv) as (K & HK & R1 & R2).
  destruct (to_accept _ _ _ _ _ _ Hok _ _ _ HK Ha) as (He & p & Hc & Hn). split; auto. exists p. split; auto. apply R1; auto.
Qed.

Lemma act_shift_c stk i p a : vstk stk -> core (syms stk) i p -> nextn i p = Some (Terminal a) ->
  exists s, acts (top stk) a = Some (Shift s).
Proof.
  intros Hv Hc Hn. destruct (vstk_rep stk Hv) as (K & HK & R1 & R2).
  eapply (to_shift_c _ _ _ _ _ _ Hok); eauto. apply R1; eauto.
Qed.

Lemma act_reduce_c stk j p a : vstk stk -> look (syms stk) j p a -> nextn j p = None -> j <> 0 ->
  acts (top stk) a = Some (Reduce j).
Proof.
  intros Hv Hc Hn Hj. destruct (vstk_rep stk Hv) as (K & HK & R1 & R2).
  eapply (to_reduce_c _ _ _ _ _ _ Hok); eauto. apply R2; eauto.
Qed.

Lemma act_accept_c stk p : vstk stk -> core (syms stk) 0 p -> nextn 0 p = None ->
  acts (top stk) EndOfStream = Some Accept.
Proof.
  intros Hv Hc Hn. destruct (vstk_rep stk Hv) as (K & HK & R1 & R2).
  eapply (to_accept_c _ _ _ _ _ _ Hok); eauto. apply R1; eauto.
Qed.

Lemma act_goto_c stk i p l : vstk stk -> core (syms stk) i p -> nextn i p = Some (Production l) ->
  exists s, gts (top stk) l = Some s.
Proof.
  intros Hv Hc Hn. destruct (vstk_rep stk Hv) as (K & HK & R1 & R2).
  eapply (to_goto_c _ _ _ _ _ _ Hok); eauto. apply R1; eauto.
Qed.

Lemma rsym_root i l : rsym i l -> l = 0 -> i = 0.
Proof.
  intros (r & Hr & Hs) ->. destruct (wf_root _ Hwf) as (r0 & mt & Hr0 & Hs0 & Hm & H1 & H2).
  destruct (wf_meta _ Hwf _ _ Hm) as (_ & _ & Hx). apply (Hx _ _ Hr) in Hs. lia.
Qed.

Lemma isymbol_root i r : nth_error (rules g) i = Some r -> isymbol r = 0 -> i = 0.
Proof. intros Hr Hs. apply (rsym_root i 0); auto. exists r. auto. Qed.

(** The part of a rule before the dot is on top of the stack. *)
Lemma core_suffix γ i p : core γ i p ->
  exists δ, γ = rev (strip (firstn p (rnodes i))) ++ δ /\ core δ i 0 /\
    length (strip (firstn p (rnodes i))) = p /\ p <= length (rnodes i).
Proof.
  induction 1 as [|γ i p l j Hc IH Hl Hr|γ i p X Hc IH Hn].
  - exists []. simpl. repeat split; [apply core_init|lia].
  - exists γ. simpl. repeat split; [eapply core_close; eauto|lia].
  - destruct IH as (δ & -> & H0 & Hl & Hle). exists δ. apply nextn_iff in Hn as (ns & Hs & He).
    assert (Hf : firstn (p + 1) (rnodes i) = firstn p (rnodes i) ++ [X]).
    { rewrite <- (firstn_skipn p (rnodes i)) at 1. rewrite Hs.
      assert (Hp : length (firstn p (rnodes i)) = p) by (apply firstn_length_le; auto).
      rewrite firstn_app, Hp. replace (p + 1 - p) with 1 by lia. rewrite firstn_all2 by lia. reflexivity. }
    rewrite Hf. unfold strip in *. rewrite filter_app. simpl. rewrite He. simpl. rewrite rev_app_distr. simpl.
    split; auto. split; auto. split; [etransitivity; [apply app_length|]; simpl; f_equal; exact Hl|].
    assert (length (skipn p (rnodes i)) = length (rnodes i) - p) by apply skipn_length. rewrite Hs in *. simpl in *. lia.
Qed.

Lemma core_complete γ i p : core γ i p -> nextn i p = None ->
  exists δ, γ = rev (strip (rnodes i)) ++ δ /\ core δ i 0.
Proof.
  intros Hc Hn. destruct (core_suffix γ i p Hc) as (δ & -> & H0 & _). exists δ. split; auto. f_equal. f_equal.
  apply nextn_none in Hn. apply strip_firstn. auto.
Qed.

(** The item advances over the rest of its rule. *)
Lemma skipn_strip_cons i p X ns : skipn p (rnodes i) = X :: ns -> is_epsilon X = false ->
  rev (strip (skipn (p + 1) (rnodes i))) ++ [X] = rev (strip (skipn p (rnodes i))).
Proof. intros Hs He. rewrite (skipn_S _ _ _ _ Hs), Hs. simpl. rewrite He. reflexivity. Qed.

Lemma adv_core γ i p : core γ i p -> exists p', core (rev (strip (skipn p (rnodes i))) ++ γ) i p' /\ nextn i p' = None.
Proof.
  remember (strip (skipn p (rnodes i))) as rest eqn:Hr. revert γ p Hr. induction rest as [|X rest IH]; intros γ p Hr Hc.
  - exists p. split; auto. apply nextn_none. auto.
  - destruct (skipn p (rnodes i)) as [|Y ns] eqn:Hs; [discriminate|].
    assert (He : is_epsilon Y = false).
    { destruct (is_epsilon Y) eqn:He; auto. destruct Y as [[| |]|]; try discriminate. apply eps_skipn in Hs as Hf.
      exfalso. simpl in Hr. assert (Hx : In X (strip ns)) by (rewrite <- Hr; simpl; auto). apply filter_In in Hx as (Hx & Hy).
      rewrite Forall_forall in Hf. rewrite (Hf _ Hx) in Hy. discriminate. }
    simpl in Hr. rewrite He in Hr. simpl in Hr. injection Hr as -> Hr.
    destruct (IH (Y :: γ) (p + 1)) as (p' & Hc' & Hn').
    + rewrite (skipn_S _ _ _ _ Hs). auto.
    + apply core_adv; auto. apply nextn_iff. eauto.
    + exists p'. split; auto. simpl. rewrite <- app_assoc. auto.
Qed.

Lemma adv_look γ i p a : look γ i p a -> exists p', look (rev (strip (skipn p (rnodes i))) ++ γ) i p' a /\ nextn i p' = None.
Proof.
  remember (strip (skipn p (rnodes i))) as rest eqn:Hr. revert γ p Hr. induction rest as [|X rest IH]; intros γ p Hr Hc.
  - exists p. split; auto. apply nextn_none. auto.
  - destruct (skipn p (rnodes i)) as [|Y ns] eqn:Hs; [discriminate|].
    assert (He : is_epsilon Y = false).
    { destruct (is_epsilon Y) eqn:He; auto. destruct Y as [[| |]|]; try discriminate. apply eps_skipn in Hs as Hf.
      exfalso. simpl in Hr. assert (Hx : In X (strip ns)) by (rewrite <- Hr; simpl; auto). apply filter_In in Hx as (Hx & Hy).
      rewrite Forall_forall in Hf. rewrite (Hf _ Hx) in Hy. discriminate. }
    simpl in Hr. rewrite He in Hr. simpl in Hr. injection Hr as -> Hr.
    destruct (IH (Y :: γ) (p + 1)) as (p' & Hc' & Hn').
    + rewrite (skipn_S _ _ _ _ Hs). auto.
    + apply look_adv; auto. apply nextn_iff. eauto.
    + exists p'. split; auto. simpl. rewrite <- app_assoc. auto.
Qed.

(** Steps. *)
Definition rstep (a : aug nat) (stk stk' : list entry) : Prop :=
  exists j r popped rest s, acts (top stk) a = Some (Reduce j) /\ nth_error (rules g) j = Some r /\
    stk = popped ++ rest /\ length popped = length (strip (irhs r)) /\
    gts (top rest) (isymbol r) = Some s /\
    stk' = (s, Production (isymbol r), Node j (rev (trees popped))) :: rest.

Lemma app_inv_length {A} (a b c d : list A) : a ++ b = c ++ d -> length a = length c -> a = c /\ b = d.
Proof.
  revert c. induction a as [|x a IH]; intros [|y c] Heq Hl; simpl in *; try discriminate; auto.
  injection Heq as -> Heq. destruct (IH c Heq) as (-> & ->); auto.
Qed.

Lemma rstep_fun a stk s1 s2 : rstep a stk s1 -> rstep a stk s2 -> s1 = s2.
Proof.
  intros (j & r & po & re & s & A1 & B1 & C1 & D1 & E1 & ->) (j' & r' & po' & re' & s' & A2 & B2 & C2 & D2 & E2 & ->).
  assert (j' = j) by congruence. subst j'. assert (r' = r) by congruence. subst r'.
  subst stk. apply app_inv_length in C2 as (<- & <-); [|congruence]. congruence.
Qed.

Lemma rstep_vstk a stk stk' : vstk stk -> rstep a stk stk' -> vstk stk'.
Proof.
  intros Hv (j & r & po & re & s & A1 & B1 & -> & D1 & E1 & ->). apply vs_goto; auto.
  - eapply vstk_app; eauto.
  - intros Hs. apply (act_reduce _ _ _ Hv) in A1 as (Hj & _). apply Hj. eapply isymbol_root; eauto.
Qed.

Inductive rsteps (a : aug nat) : list entry -> list entry -> Prop :=
| rs_refl stk : rsteps a stk stk
| rs_step stk stk' stk'' : rstep a stk stk' -> rsteps a stk' stk'' -> rsteps a stk stk''.

Lemma rsteps_trans a s1 s2 s3 : rsteps a s1 s2 -> rsteps a s2 s3 -> rsteps a s1 s3.
Proof. induction 1; auto. intros. eapply rs_step; eauto. Qed.

Lemma rsteps_one a s1 s2 : rstep a s1 s2 -> rsteps a s1 s2.
Proof. intros. eapply rs_step; eauto. apply rs_refl. Qed.

Lemma rsteps_vstk a stk stk' : vstk stk -> rsteps a stk stk' -> vstk stk'.
Proof. intros Hv. induction 1; auto. apply IHrsteps. eapply rstep_vstk; eauto. Qed.

(** A complete rule on top of the stack, with a lookahead for it, is reduced. *)
Lemma do_reduce stk pushes j r a i p : vstk (pushes ++ stk) -> nth_error (rules g) j = Some r -> j <> 0 ->
  syms pushes = rev (strip (irhs r)) -> look (syms stk) j 0 a ->
  core (syms stk) i p -> nextl i p = Some (isymbol r) ->
  exists s, rstep a (pushes ++ stk) ((s, Production (isymbol r), Node j (rev (trees pushes))) :: stk) /\
    vstk ((s, Production (isymbol r), Node j (rev (trees pushes))) :: stk).
Proof.
  intros Hv Hr Hj Hs Hl Hc Hn.
  destruct (adv_look _ _ _ _ Hl) as (p' & Hl' & Hn'). rewrite skipn_O, (igram_rnodes _ _ Hr), <- Hs in Hl'.
  unfold syms in Hl'. rewrite <- map_app in Hl'.
  pose proof (act_reduce_c _ _ _ _ Hv Hl' Hn' Hj) as Ha.
  destruct (act_goto_c stk i p (isymbol r) (vstk_app _ _ Hv) Hc) as (s & Hg); [apply nextn_nextl; auto|].
  assert (Hst : rstep a (pushes ++ stk) ((s, Production (isymbol r), Node j (rev (trees pushes))) :: stk)).
  { exists j, r, pushes, stk, s. repeat split; auto.
    rewrite <- (map_length esym), <- (rev_length (strip (irhs r))), <- Hs. reflexivity. }
  exists s. split; auto. eapply rstep_vstk; eauto.
Qed.

(** Rules of labels after a dot are never the root rule. *)
Lemma next_not_root stk i p l j : vstk stk -> core (syms stk) i p -> nextl i p = Some l -> rsym j l ->
  j = 0 -> In (Production 0) (rnodes 0).
Proof.
  intros Hv Hc Hl Hr ->. destruct Hr as (r & Hr & Hs). destruct (wf_root _ Hwf) as (r0 & mt & Hr0 & Hs0 & _).
  assert (l = 0) by congruence. subst l. apply nextl_iff in Hl as (ns & Hl).
  assert (Hin : In (Production 0) (rnodes i)).
  { rewrite <- (firstn_skipn p (rnodes i)). apply in_or_app. right. rewrite Hl. simpl. auto. }
  destruct (Nat.eq_dec i 0) as [->|Hne]; auto.
  apply rnodes_in in Hin as (r' & Hr' & Hin). exfalso. eapply (wf_rootref _ Hwf i r'); eauto.
Qed.

Lemma root_not_pushed stk pushes : vstk (pushes ++ stk) -> In (Production 0) (rnodes 0) ->
  syms pushes = rev (strip (rnodes 0)) -> False.
Proof.
  intros Hv Hin Hs. apply (vstk_no0 _ Hv). unfold syms. rewrite map_app. apply in_or_app. left. fold (syms pushes).
  rewrite Hs. apply in_rev. rewrite rev_involutive. apply filter_In. auto.
Qed.

Lemma all_eps_strip (ns : list inode) : Forall (fun nd => nd = Terminal Epsilon) ns -> strip ns = [].
Proof. induction 1; simpl; subst; auto. Qed.

(** Completeness: the machine follows every derivation.  The next input symbol
    stays within the machine's sight through [la]. *)
Definition la (w : list nat) : aug nat := match w with [] => EndOfStream | x :: _ => Token x end.

Inductive mstep : list entry * list nat -> list entry * list nat -> Prop :=
| m_shift stk x w s : acts (top stk) (Token x) = Some (Shift s) ->
    mstep (stk, x :: w) ((s, Terminal (Token x), Leaf x) :: stk, w)
| m_reduce stk w stk' : rstep (la w) stk stk' -> mstep (stk, w) (stk', w).

Inductive msteps : list entry * list nat -> list entry * list nat -> Prop :=
| ms_refl c : msteps c c
| ms_step c c' c'' : mstep c c' -> msteps c' c'' -> msteps c c''.

Lemma msteps_trans c1 c2 c3 : msteps c1 c2 -> msteps c2 c3 -> msteps c1 c3.
Proof. induction 1; auto. intros. eapply ms_step; eauto. Qed.

Lemma msteps_one c1 c2 : mstep c1 c2 -> msteps c1 c2.
Proof. intros. eapply ms_step; eauto. apply ms_refl. Qed.

Lemma rsteps_msteps w s1 s2 : rsteps (la w) s1 s2 -> msteps (s1, w) (s2, w).
Proof. induction 1; [apply ms_refl|]. eapply ms_step; [apply m_reduce|]; eauto. Qed.

Lemma mstep_fun c c1 c2 : mstep c c1 -> mstep c c2 -> c1 = c2.
Proof.
  intros H1 H2. destruct H1 as [stk x w s Ha|stk w stk' Hr]; inversion H2 as [? ? ? s' Ha'|? ? ? Hr']; subst.
  - congruence.
  - destruct Hr' as (j & r & po & re & s' & A & _). simpl in A. congruence.
  - destruct Hr as (j & r & po & re & s'' & A & _). simpl in A. congruence.
  - f_equal. eapply rstep_fun; eauto.
Qed.

Lemma mstep_vstk c c' : vstk (fst c) -> mstep c c' -> vstk (fst c').
Proof.
  intros Hv H1. destruct H1 as [stk x w s Ha|stk w stk' Hr]; simpl in *.
  - apply vs_shift; auto.
  - eapply rstep_vstk; eauto.
Qed.

Lemma msteps_vstk c c' : vstk (fst c) -> msteps c c' -> vstk (fst c').
Proof. intros Hv. induction 1; auto. apply IHmsteps. eapply mstep_vstk; eauto. Qed.

Definition maccept (c : list entry * list nat) : Prop := acts (top (fst c)) (la (snd c)) = Some Accept.

(** Soundness: what is on the stack derives what was consumed. *)
Definition yields (stk : list entry) (w : list nat) : Prop := derives G (rev (syms stk)) w (rev (trees stk)).

Lemma popped_syms stk popped rest a j r : vstk stk -> acts (top stk) a = Some (Reduce j) ->
  nth_error (rules g) j = Some r -> stk = popped ++ rest -> length popped = length (strip (irhs r)) ->
  syms popped = rev (strip (irhs r)).
Proof.
  intros Hv Ha Hr -> Hl. destruct (act_reduce _ _ _ Hv Ha) as (_ & p & Hlk & Hn).
  apply look_core in Hlk. destruct (core_complete _ _ _ Hlk Hn) as (δ & Hd & _). rewrite (igram_rnodes _ _ Hr) in Hd.
  unfold syms in Hd. rewrite map_app in Hd. apply app_inv_length in Hd as (Hd & _); auto.
  rewrite map_length, rev_length. auto.
Qed.

Lemma mstep_yields c c' u : vstk (fst c) -> yields (fst c) u -> mstep c c' ->
  exists u', yields (fst c') u' /\ u ++ snd c = u' ++ snd c'.
Proof.
  intros Hv Hy Hs. destruct Hs as [stk x w s Ha|stk w stk' Hr]; simpl in *.
  - exists (u ++ [x]). split; [|rewrite <- app_assoc; reflexivity].
    unfold yields in *. simpl. apply (derives_app G _ u _ [Terminal (Token x)] [x] [Leaf x]); auto. constructor. constructor.
  - exists u. split; auto. destruct Hr as (j & r & po & re & s & A & B & C & D & E & ->).
    pose proof (popped_syms _ _ _ _ _ _ Hv A B C D) as Hp. subst stk. unfold yields in *.
    unfold syms, trees in Hy. rewrite !map_app, !rev_app_distr in Hy.
    destruct (derives_app_inv _ _ _ _ _ Hy) as (u1 & u2 & t1 & t2 & -> & Ht & D1 & D2).
    fold (syms po) in D2. rewrite Hp, rev_involutive in D2. apply (proj1 (derives_strip _ _ _ _)) in D2.
    (* the trees split at the same point *)
    assert (Hlen : forall ns w ts, derives G ns w ts -> length ts = length (strip ns)).
    { clear. induction 1; simpl; auto. }
    assert (Hl2 : length t2 = length (rev (map etree po))).
    { rewrite (Hlen _ _ _ D2), rev_length, map_length. auto. }
    assert (Ht2 : t1 = rev (map etree re) /\ t2 = rev (map etree po)).
    { assert (length t1 = length (rev (map etree re))).
      { apply (f_equal (@length _)) in Ht. rewrite !app_length in Ht. lia. }
      symmetry in Ht. apply app_inv_length in Ht as (-> & ->); auto. }
    destruct Ht2 as (-> & ->). simpl. apply derives_app; auto.
    pose proof (derives_production G j (irule r) (rev (trees po)) u2 [] [] []) as Hx.
    rewrite app_nil_r in Hx. apply Hx; [|exact D2|constructor].
    unfold igram. rewrite nth_error_map, B. reflexivity.
Qed.

Lemma msteps_yields c c' u : vstk (fst c) -> yields (fst c) u -> msteps c c' ->
  exists u', yields (fst c') u' /\ u ++ snd c = u' ++ snd c'.
Proof.
  intros Hv Hy Hs. revert u Hv Hy. induction Hs as [c|c c1 c2 H1 H2 IH]; intros u Hv Hy; [eauto|].
  destruct (mstep_yields _ _ _ Hv Hy H1) as (u1 & Hy1 & He1).
  destruct (IH u1) as (u2 & Hy2 & He2); auto; [eapply mstep_vstk; eauto|]. exists u2. split; auto. congruence.
Qed.

Lemma core_root_gen stk p : vstk stk -> core (syms stk) 0 p -> nextn 0 p = None -> syms stk = rev (strip (rnodes 0)).
Proof.
  intros Hv Hc Hn. destruct (core_complete _ _ _ Hc Hn) as (δ & Hd & _). rewrite Hd.
  destruct (in_dec eq_dec (Production 0) (rnodes 0)) as [Hin|Hclean].
  - exfalso. apply (vstk_no0 _ Hv). rewrite Hd. apply in_or_app. left. apply -> in_rev. apply filter_In. auto.
  - pose proof (core_root g Hwf _ _ Hclean Hc) as Hp.
    destruct (core_suffix _ _ _ Hc) as (δ' & Hd' & _ & Hl & _).
    rewrite Hd' in Hp at 1. rewrite app_length, rev_length in Hp.
    apply (f_equal (@length _)) in Hd as Hd2. apply (f_equal (@length _)) in Hd' as Hd2'.
    assert (length δ' = 0) by lia. rewrite Hd2' in Hd2. rewrite !app_length, !rev_length in Hd2.
    assert (Hls : length (strip (rnodes 0)) = length (strip (firstn p (rnodes 0)))).
    { apply nextn_none in Hn. f_equal. symmetry. apply strip_firstn. auto. }
    assert (length δ = 0) by lia. destruct δ; [rewrite app_nil_r; auto|discriminate].
Qed.

Theorem machine_sound w stk : msteps ([], w) (stk, []) -> maccept (stk, []) -> parses G w (Node 0 (rev (trees stk))).
Proof.
  intros Hs Ha. assert (Hv : vstk stk) by (apply (msteps_vstk ([], w) (stk, [])); auto; apply vs_nil).
  destruct (msteps_yields ([], w) (stk, []) [] vs_nil) as (u & Hy & He); [constructor|auto|]. simpl in *.
  rewrite app_nil_r in He. subst u. destruct (act_accept _ _ Hv Ha) as (_ & p & Hc & Hn).
  pose proof (core_root_gen _ _ Hv Hc Hn) as Hsy. unfold yields in Hy. rewrite Hsy, rev_involutive in Hy. apply (proj1 (derives_strip _ _ _ _)) in Hy.
  destruct (wf_root _ Hwf) as (r & mt & Hr & _). rewrite (igram_rnodes _ _ Hr) in Hy.
  exists (irule r), (rev (trees stk)). split; auto. apply igram_nth. eauto.
Qed.

(** Acceptance happens only at the end of the input. *)
Lemma maccept_end c : vstk (fst c) -> maccept c -> snd c = [].
Proof. destruct c as [stk [|x w]]; simpl; auto. intros Hv Ha. apply (act_accept _ _ Hv) in Ha as (Hx & _). discriminate. Qed.

(** Progress: reductions on a lookahead always end in a shift of it or in
    acceptance. *)
Definition good_end (a : aug nat) (stk : list entry) : Prop :=
  (exists s, acts (top stk) a = Some (Shift s)) \/ acts (top stk) a = Some Accept.
Definition progress (a : aug nat) (stk : list entry) : Prop := exists stk', rsteps a stk stk' /\ good_end a stk'.

Lemma progress_steps a s1 s2 : rsteps a s1 s2 -> progress a s2 -> progress a s1.
Proof. intros Hs (s3 & H3 & Hg). exists s3. split; auto. eapply rsteps_trans; eauto. Qed.

Lemma JN_root : In (Production 0) (rnodes 0) ->
  (forall l, JN g F l -> l <> 0) /\ (forall ns, JNs g F ns -> ~ In (Production 0) ns).
Proof.
  intros Hd. destruct (wf_root _ Hwf) as (r0 & mt & Hr0 & Hs0 & _).
  apply (JN_mutind g F (fun l _ => l <> 0) (fun ns _ => ~ In (Production 0) ns)); simpl; try tauto.
  - intros j r Hj Hm Hns IH Hl. apply (isymbol_root _ _ Hj) in Hl. subst j. apply IH. rewrite <- (igram_rnodes _ _ Hj). auto.
  - intros ns Hns IH [Hx|Hx]; [discriminate|auto].
  - intros l ns Hl IHl Hns IHns [Hx|Hx]; [congruence|auto].
Qed.

Lemma JNs_no0 i p ns : JNs g F ns -> skipn p (rnodes i) = ns -> ~ In (Production 0) ns.
Proof.
  intros Hns Hs Hin. assert (Hin2 : In (Production 0) (rnodes i)).
  { rewrite <- (firstn_skipn p (rnodes i)), Hs. apply in_or_app. auto. }
  destruct (Nat.eq_dec i 0) as [->|Hne]; [apply (proj2 (JN_root Hin2) ns); auto|].
  apply rnodes_in in Hin2 as (r & Hr & Hin2). eapply (wf_rootref _ Hwf i r); eauto.
Qed.

Lemma JN_next0 i p l : JN g F l -> nextl i p = Some l -> l <> 0.
Proof.
  intros Hl Hn ->. apply nextl_iff in Hn as (ns & Hs). assert (Hin2 : In (Production 0) (rnodes i)).
  { rewrite <- (firstn_skipn p (rnodes i)), Hs. apply in_or_app. simpl. auto. }
  destruct (Nat.eq_dec i 0) as [->|Hne]; [apply (proj1 (JN_root Hin2) 0); auto|].
  apply rnodes_in in Hin2 as (r & Hr & Hin2). eapply (wf_rootref _ Hwf i r); eauto.
Qed.

Lemma sim_null :
  (forall l, JN g F l -> forall stk i p a, vstk stk -> core (syms stk) i p -> nextl i p = Some l ->
     (forall j, rsym j l -> look (syms stk) j 0 a) ->
     exists s tr, rsteps a stk ((s, Production l, tr) :: stk) /\ vstk ((s, Production l, tr) :: stk)) /\
  (forall ns, JNs g F ns -> forall stk i p a, vstk stk -> core (syms stk) i p -> look (syms stk) i p a -> skipn p (rnodes i) = ns ->
     exists pushes, rsteps a stk (pushes ++ stk) /\ vstk (pushes ++ stk) /\ syms pushes = rev (strip ns)).
Proof.
  apply (JN_mutind g F
    (fun l _ => forall stk i p a, vstk stk -> core (syms stk) i p -> nextl i p = Some l ->
     (forall j, rsym j l -> look (syms stk) j 0 a) ->
     exists s tr, rsteps a stk ((s, Production l, tr) :: stk) /\ vstk ((s, Production l, tr) :: stk))
    (fun ns _ => forall stk i p a, vstk stk -> core (syms stk) i p -> look (syms stk) i p a -> skipn p (rnodes i) = ns ->
     exists pushes, rsteps a stk (pushes ++ stk) /\ vstk (pushes ++ stk) /\ syms pushes = rev (strip ns))).
  - intros j r Hj Hm Hns IH stk i p a Hv Hc Hn Hlk.
    assert (Hl0 : isymbol r <> 0) by (eapply JN_next0; eauto; econstructor; eauto).
    assert (Hrs : rsym j (isymbol r)) by (exists r; auto).
    assert (Hj0 : j <> 0).
    { intros ->. destruct (wf_root _ Hwf) as (r0 & mt & Hr0 & Hs0 & _). assert (r0 = r) by congruence. subst. auto. }
    destruct (IH stk j 0 a) as (pushes & Hst & Hv' & Hsy); auto.
    + eapply core_close; eauto.
    + rewrite skipn_O. apply igram_rnodes; auto.
    + destruct (do_reduce stk pushes j r a i p) as (s & Hr & Hv2); auto.
      exists s, (Node j (rev (trees pushes))). split; auto. eapply rsteps_trans; [eauto|apply rsteps_one; auto].
  - intros stk i p a Hv Hc Hlk Hs. exists []. split; [apply rs_refl|]. auto.
  - intros ns Hns IH stk i p a Hv Hc Hlk Hs. exists []. split; [apply rs_refl|]. split; auto. simpl.
    apply eps_skipn in Hs. rewrite all_eps_strip; auto.
  - intros l ns Hl IHl Hns IHns stk i p a Hv Hc Hlk Hs.
    assert (Hnl : nextl i p = Some l) by (apply nextl_iff; eauto).
    assert (Hsk := skipn_S _ _ _ _ Hs).
    destruct (IHl stk i p a) as (s & tr & Hst & Hv'); auto.
    { intros j Hj. eapply look_follow; eauto. rewrite Hsk. apply (proj2 (fnull_JNs g F _ HF)). auto. }
    assert (Hnn : nextn i p = Some (Production l)) by (apply nextn_nextl; auto).
    destruct (IHns ((s, Production l, tr) :: stk) i (p + 1) a) as (pushes & Hst2 & Hv2 & Hsy); auto.
    { simpl. apply core_adv; auto. }
    { simpl. apply look_adv; auto. }
    exists (pushes ++ [(s, Production l, tr)]). rewrite <- app_assoc. simpl. split; [eapply rsteps_trans; eauto|]. split; auto.
    unfold syms in *. rewrite map_app, Hsy. reflexivity.
Qed.

Lemma sim_first :
  (forall l a, JF g F l a -> forall stk i p, vstk stk -> core (syms stk) i p -> nextl i p = Some l -> progress a stk) /\
  (forall ns a, JFs g F ns a -> forall stk i p, vstk stk -> core (syms stk) i p -> skipn p (rnodes i) = ns -> progress a stk).
Proof.
  apply (JF_mutind g F
    (fun l a _ => forall stk i p, vstk stk -> core (syms stk) i p -> nextl i p = Some l -> progress a stk)
    (fun ns a _ => forall stk i p, vstk stk -> core (syms stk) i p -> skipn p (rnodes i) = ns -> progress a stk)).
  - intros j r a Hj Hm Hns IH stk i p Hv Hc Hn. apply (IH stk j 0); auto.
    + eapply core_close; eauto. exists r. auto.
    + rewrite skipn_O. apply igram_rnodes; auto.
  - intros a ns Ha stk i p Hv Hc Hs. exists stk. split; [apply rs_refl|]. left. eapply act_shift_c; eauto.
    apply nextn_iff. exists ns. split; auto. destruct a; auto. congruence.
  - intros ns a Hns IH stk i p Hv Hc Hs. exfalso. apply eps_skipn in Hs.
    assert (Hne : forall ns a, JFs g F ns a -> ~ Forall (fun nd => nd = Terminal Epsilon) ns).
    { clear. induction ns as [|nd ns IH]; intros a Hj Hf; inversion Hj; subst; inversion Hf; subst; try congruence. eapply IH; eauto. }
    eapply Hne; eauto.
  - intros l ns a Hl Hns IH stk i p Hv Hc Hs.
    assert (Hnl : nextl i p = Some l) by (apply nextl_iff; eauto).
    assert (Hsk := skipn_S _ _ _ _ Hs).
    assert (Hne : a <> Epsilon) by (apply (proj2 (JF_neps g F) ns a); auto).
    assert (Hnn : nextn i p = Some (Production l)) by (apply nextn_nextl; auto).
    destruct (proj1 sim_null l Hl stk i p a Hv Hc Hnl) as (s & tr & Hst & Hv').
    { intros j Hj. eapply look_first; eauto. rewrite Hsk. apply (proj2 (ffirst_JFs g F _ a HF Hne)). auto. }
    eapply progress_steps; eauto. apply (IH _ i (p + 1)); auto. simpl. apply core_adv; auto.
  - intros l ns a Hl IH stk i p Hv Hc Hs. apply (IH stk i p); auto. apply nextl_iff; eauto.
Qed.

(** Complete rules with a lookahead make progress. *)
Lemma complete_progress γ i p a : look γ i p a -> forall pushes stk, vstk (pushes ++ stk) -> syms stk = γ ->
  syms pushes = rev (strip (skipn p (rnodes i))) -> progress a (pushes ++ stk).
Proof.
  induction 1 as [|γ i p l j a Hc Hl Hr Ha Hx|γ i p l j a Hlk IH Hl Hr Hx|γ i p X a Hlk IH Hn]; intros pushes stk Hv Hsy Hps.
  - exists (pushes ++ stk). split; [apply rs_refl|]. right.
    destruct (adv_core [] 0 0 (core_init g)) as (p' & Hc & Hn). eapply act_accept_c; eauto.
    unfold syms in *. rewrite map_app, Hsy, Hps. auto.
  - assert (Hj : j <> 0).
    { intros Hj. assert (Hd : In (Production 0) (rnodes 0)).
      { eapply (next_not_root stk i p l j); eauto; [eapply vstk_app; eauto|congruence]. }
      rewrite skipn_O, Hj in Hps. eapply root_not_pushed; eauto. }
    destruct Hr as (r & Hr & <-). assert (Hr' : rsym j (isymbol r)) by (exists r; auto). rewrite skipn_O, (igram_rnodes _ _ Hr) in Hps.
    destruct (do_reduce stk pushes j r a i p) as (s & Hst & Hv2); auto; try congruence.
    { rewrite Hsy. eapply look_first; eauto. }
    eapply progress_steps; [apply rsteps_one; eauto|].
    apply (proj2 sim_first _ a (proj1 (ffirst_JFs g F _ a HF Ha) Hx) _ i (p + 1)); auto. simpl. rewrite Hsy. apply core_adv; auto.
    apply nextn_nextl; auto.
  - pose proof (look_core _ _ _ _ _ _ Hlk) as Hc.
    assert (Hvs : vstk stk) by (eapply vstk_app; eauto).
    assert (Hj : j <> 0).
    { intros Hj. assert (Hd : In (Production 0) (rnodes 0)).
      { eapply (next_not_root stk i p l j); eauto. congruence. }
      rewrite skipn_O, Hj in Hps. eapply root_not_pushed; eauto. }
    destruct Hr as (r & Hr & <-). assert (Hr' : rsym j (isymbol r)) by (exists r; auto). rewrite skipn_O, (igram_rnodes _ _ Hr) in Hps.
    destruct (do_reduce stk pushes j r a i p) as (s & Hst & Hv2); auto; try congruence.
    { rewrite Hsy. eapply look_follow; eauto. }
    eapply progress_steps; [apply rsteps_one; eauto|].
    assert (Hnn : nextn i p = Some (Production (isymbol r))) by (apply nextn_nextl; auto).
    apply nextn_iff in Hnn as Hnn'. destruct Hnn' as (ns & Hs & He). pose proof (skipn_S _ _ _ _ Hs) as Hsk.
    set (e := (s, Production (isymbol r), Node j (rev (trees pushes)))) in *.
    destruct (proj2 sim_null _ (proj1 (fnull_JNs g F _ HF) Hx) (e :: stk) i (p + 1) a) as (pushes2 & Hst2 & Hv3 & Hsy2); auto.
    { simpl. rewrite Hsy. apply core_adv; auto. }
    { simpl. rewrite Hsy. apply look_adv; auto. }
    eapply progress_steps; eauto.
    change (e :: stk) with ([e] ++ stk) in Hv3 |- *. rewrite app_assoc in Hv3 |- *. apply IH; auto.
    etransitivity; [apply syms_app|]. rewrite Hsy2, <- (skipn_strip_cons _ _ _ _ Hs He). reflexivity.
  - apply nextn_iff in Hn as (ns & Hs & He).
    destruct stk as [|e stk]; [discriminate|]. simpl in Hsy. injection Hsy as He' Hsy.
    replace (pushes ++ e :: stk) with ((pushes ++ [e]) ++ stk) in * by (rewrite <- app_assoc; reflexivity).
    apply IH; auto. etransitivity; [apply syms_app|]. rewrite Hps, <- (skipn_strip_cons _ _ _ _ Hs He). simpl. rewrite He'. reflexivity.
Qed.

Theorem reduce_progress stk a j : vstk stk -> acts (top stk) a = Some (Reduce j) -> progress a stk.
Proof.
  intros Hv Ha. destruct (act_reduce _ _ _ Hv Ha) as (Hj & p & Hlk & Hn).
  apply (complete_progress _ _ _ _ Hlk [] stk); auto. apply nextn_none in Hn. rewrite Hn. reflexivity.
Qed.

(** Reductions are always possible. *)
Lemma core_0_inv γ j : core γ j 0 -> j <> 0 -> exists i p l, core γ i p /\ nextl i p = Some l /\ rsym j l.
Proof. intros Hc Hj. inversion Hc; subst; [tauto|eauto 6|lia]. Qed.

Lemma rstep_exists stk a j : vstk stk -> acts (top stk) a = Some (Reduce j) -> exists stk', rstep a stk stk'.
Proof.
  intros Hv Ha. destruct (act_reduce _ _ _ Hv Ha) as (Hj & p & Hlk & Hn). apply look_core in Hlk as Hc.
  destruct (core_complete _ _ _ Hc Hn) as (δ & Hd & Hc0). destruct (core_0_inv _ _ Hc0 Hj) as (i & q & l & Hci & Hl & (r & Hr & Hs)).
  rewrite (igram_rnodes _ _ Hr) in Hd.
  set (k := length (strip (irhs r))). pose proof (firstn_skipn k stk) as Hsp.
  assert (Hlk2 : length (firstn k stk) = k).
  { apply firstn_length_le. rewrite <- (map_length esym stk). fold (syms stk). rewrite Hd, app_length, rev_length. unfold k. lia. }
  assert (Hsy : syms (skipn k stk) = δ).
  { rewrite <- Hsp in Hd. unfold syms in Hd. rewrite map_app in Hd. apply app_inv_length in Hd as (_ & Hd); [auto|].
    rewrite map_length, rev_length, Hlk2. reflexivity. }
  destruct (act_goto_c (skipn k stk) i q l) as (s & Hg).
  { apply (vstk_app (firstn k stk)). rewrite Hsp. auto. }
  { rewrite Hsy. auto. }
  { apply nextn_nextl. auto. }
  exists ((s, Production (isymbol r), Node j (rev (trees (firstn k stk)))) :: skipn k stk).
  exists j, r, (firstn k stk), (skipn k stk), s. subst l. repeat split; auto.
Qed.

(** Termination. *)
Definition stuck (c : list entry * list nat) : Prop := acts (top (fst c)) (la (snd c)) = None.

Theorem machine_terminates w : forall stk, vstk stk -> exists c, msteps (stk, w) c /\ (maccept c \/ stuck c).
Proof.
  induction w as [|x w IH]; intros stk Hv.
  - assert (Hend : forall stk', vstk stk' -> good_end EndOfStream stk' -> maccept (stk', [])).
    { intros stk' Hv' [(s & Hs)|Hs]; auto. exfalso. destruct (act_shift _ _ _ Hv' Hs) as (i & p & _ & Hn).
      apply nextn_iff in Hn as (ns & Hs' & _). apply (no_eos_rnodes i). rewrite <- (firstn_skipn p (rnodes i)), Hs'. apply in_or_app. simpl. auto. }
    destruct (acts (top stk) EndOfStream) as [[s|j|]|] eqn:Ha; cycle 2.
    + exists (stk, []). split; [apply ms_refl|]. left. auto.
    + exists (stk, []). split; [apply ms_refl|]. right. auto.
    + exists (stk, []). split; [apply ms_refl|]. left. apply Hend; auto. left. eauto.
    + destruct (reduce_progress _ _ _ Hv Ha) as (stk' & Hs & Hg). exists (stk', []). split; [apply rsteps_msteps; auto|]. left.
      apply Hend; auto. eapply rsteps_vstk; eauto.
  - assert (Hend : forall stk', vstk stk' -> good_end (Token x) stk' -> exists c, msteps (stk', x :: w) c /\ (maccept c \/ stuck c)).
    { intros stk' Hv' [(s & Hs)|Hs].
      - destruct (IH ((s, Terminal (Token x), Leaf x) :: stk')) as (c & Hc & Hcc); [apply vs_shift; auto|].
        exists c. split; auto. eapply ms_step; [apply m_shift|]; eauto.
      - exists (stk', x :: w). split; [apply ms_refl|]. left. auto. }
    destruct (acts (top stk) (Token x)) as [[s|j|]|] eqn:Ha; cycle 2.
    + exists (stk, x :: w). split; [apply ms_refl|]. left. auto.
    + exists (stk, x :: w). split; [apply ms_refl|]. right. auto.
    + apply Hend; auto. left. eauto.
    + destruct (reduce_progress _ _ _ Hv Ha) as (stk' & Hs & Hg). destruct (Hend stk') as (c & Hc & Hcc); auto; [eapply rsteps_vstk; eauto|].
      exists c. split; auto. eapply msteps_trans; [apply rsteps_msteps|]; eauto.
Qed.

Lemma final_no_step c c' : maccept c \/ stuck c -> ~ mstep c c'.
Proof.
  intros Hf Hs. unfold maccept, stuck in Hf. destruct Hs as [stk x w s Ha|stk w stk' (j & r & po & re & s & A & _)]; simpl in *; destruct Hf; congruence.
Qed.

Lemma msteps_final c c1 c2 : msteps c c1 -> msteps c c2 -> (maccept c1 \/ stuck c1) -> msteps c2 c1.
Proof.
  intros H1. revert c2. induction H1 as [c|c c' c1 Hs H1 IH]; intros c2 H2 Hf.
  - inversion H2; subst; [apply ms_refl|]. exfalso. eapply final_no_step; eauto.
  - inversion H2 as [|c0 c'' c0' Hs' H2']; subst; [eapply ms_step; eauto|].
    rewrite (mstep_fun _ _ _ Hs' Hs) in H2'. apply IH; auto.
Qed.

Lemma msteps_final_eq c c1 c2 : msteps c c1 -> msteps c c2 -> (maccept c1 \/ stuck c1) -> (maccept c2 \/ stuck c2) -> c1 = c2.
Proof.
  intros H1 H2 F1 F2. pose proof (msteps_final _ _ _ H1 H2 F1) as Hx. inversion Hx; subst; auto. exfalso. eapply final_no_step; eauto.
Qed.

(** Completeness. *)
Section Complete.
Hypothesis Hcl : Fclosed g F.

Lemma derives_fnull ns w ts : derives G ns w ts -> w = [] -> fnull F ns = true.
Proof.
  induction 1 as [|x ns w ts D IH|ns w ts D IH|i r ts1 w1 ns w2 ts2 Hi D1 IH1 D2 IH2]; intros Hw; simpl; auto; try discriminate.
  apply app_eq_nil in Hw as (-> & ->). unfold igram in Hi. rewrite nth_error_map in Hi.
  destruct (nth_error (rules g) i) as [ir|] eqn:Hir; [|discriminate]. injection Hi as <-.
    change (symbol (irule ir)) with (isymbol ir) in *. change (rhs (irule ir)) with (irhs ir) in *.
  destruct (Hcl ir) as (Hc & _); [eapply nth_error_In; eauto|]. rewrite Hc, IH2; auto.
Qed.

Lemma derives_ffirst ns w ts : derives G ns w ts -> forall x w', w = x :: w' -> ffirst F ns (Token x) = true.
Proof.
  induction 1 as [|x ns w ts D IH|ns w ts D IH|i r ts1 w1 ns w2 ts2 Hi D1 IH1 D2 IH2]; intros y w' Hw; simpl; try discriminate.
  - injection Hw as -> _. apply eqb_refl.
  - eapply IH; eauto.
  - unfold igram in Hi. rewrite nth_error_map in Hi.
    destruct (nth_error (rules g) i) as [ir|] eqn:Hir; [|discriminate]. injection Hi as <-.
    change (symbol (irule ir)) with (isymbol ir) in *. change (rhs (irule ir)) with (irhs ir) in *.
    destruct (Hcl ir) as (Hc1 & Hc2); [eapply nth_error_In; eauto|]. destruct w1 as [|z w1]; simpl in Hw.
    + rewrite (Hc1 (derives_fnull _ _ _ D1 eq_refl)), (IH2 _ _ Hw). apply orb_true_r.
    + injection Hw as -> _. rewrite Hc2; auto; [discriminate|]. eapply IH1; eauto.
Qed.

Lemma derives_no0 ns w ts : In (Production 0) (rnodes 0) -> derives G ns w ts -> ~ In (Production 0) ns.
Proof.
  intros Hd. induction 1 as [|x ns w ts D IH|ns w ts D IH|i r ts1 w1 ns w2 ts2 Hi D1 IH1 D2 IH2]; simpl; [tauto|intros [|]; [discriminate|auto]..|].
  intros [Hx|Hx]; [|auto]. apply IH1. unfold igram in Hi. rewrite nth_error_map in Hi.
  destruct (nth_error (rules g) i) as [ir|] eqn:Hir; [|discriminate]. injection Hi as <-.
    change (symbol (irule ir)) with (isymbol ir) in *. change (rhs (irule ir)) with (irhs ir) in *. injection Hx as Hx.
  apply (isymbol_root _ _ Hir) in Hx. subst i. rewrite <- (igram_rnodes _ _ Hir). auto.
Qed.

Lemma derives_sim ns w ts : derives G ns w ts -> forall stk i p v, vstk stk -> core (syms stk) i p -> skipn p (rnodes i) = ns ->
  look (syms stk) i p (la v) -> exists pushes, msteps (stk, w ++ v) (pushes ++ stk, v) /\ vstk (pushes ++ stk) /\
    syms pushes = rev (strip ns) /\ trees pushes = rev ts.
Proof.
  induction 1 as [|x ns w ts D IH|ns w ts D IH|j r ts1 w1 ns w2 ts2 Hi D1 IH1 D2 IH2]; intros stk i p v Hv Hc Hs Hlk.
  - exists []. split; [apply ms_refl|]. auto.
  - assert (Hn : nextn i p = Some (Terminal (Token x))) by (apply nextn_iff; eauto).
    destruct (act_shift_c _ _ _ _ Hv Hc Hn) as (s & Ha). set (e := (s, Terminal (Token x), Leaf x) : entry).
    assert (Hv' : vstk (e :: stk)) by (apply vs_shift; auto).
    destruct (IH (e :: stk) i (p + 1) v) as (pushes & Hst & Hvp & Hsy & Htr); auto.
    { simpl. apply core_adv; auto. }
    { eapply skipn_S; eauto. }
    { simpl. apply look_adv; auto. }
    exists (pushes ++ [e]). rewrite <- app_assoc. simpl. split; [eapply ms_step; [apply m_shift; eauto|]; auto|]. split; auto.
    split; [etransitivity; [apply syms_app|]|etransitivity; [apply trees_app|]]; [rewrite Hsy|rewrite Htr]; reflexivity.
  - apply eps_skipn in Hs as Hf. destruct (derives_all_eps _ _ _ _ Hf D) as (-> & ->).
    exists []. split; [apply ms_refl|]. split; auto. simpl. rewrite all_eps_strip; auto.
  - unfold igram in Hi. rewrite nth_error_map in Hi.
    destruct (nth_error (rules g) j) as [ir|] eqn:Hir; [|discriminate]. injection Hi as <-.
    change (symbol (irule ir)) with (isymbol ir) in *. change (rhs (irule ir)) with (irhs ir) in *.
    assert (Hnl : nextl i p = Some (isymbol ir)) by (apply nextl_iff; eauto).
    assert (Hnn : nextn i p = Some (Production (isymbol ir))) by (apply nextn_nextl; auto).
    assert (Hrs : rsym j (isymbol ir)) by (exists ir; auto).
    assert (Hsk := skipn_S _ _ _ _ Hs).
    assert (Hj : j <> 0).
    { intros ->. assert (Hd : In (Production 0) (rnodes 0)) by (eapply (next_not_root stk i p); eauto).
      apply (derives_no0 _ _ _ Hd D1). rewrite <- (igram_rnodes _ _ Hir). auto. }
    assert (Hlj : look (syms stk) j 0 (la (w2 ++ v))).
    { destruct w2 as [|y w2]; simpl.
      - eapply look_follow; eauto. rewrite Hsk. eapply derives_fnull; eauto.
      - eapply look_first; eauto; [discriminate|]. rewrite Hsk. eapply derives_ffirst; eauto. }
    destruct (IH1 stk j 0 (w2 ++ v)) as (po & Hst & Hvp & Hsy & Htr); auto.
    { eapply core_close; eauto. }
    { rewrite skipn_O. apply igram_rnodes; auto. }
    destruct (do_reduce stk po j ir (la (w2 ++ v)) i p) as (s & Hr & Hv2); auto.
    set (e := (s, Production (isymbol ir), Node j (rev (trees po)))) in *.
    destruct (IH2 (e :: stk) i (p + 1) v) as (pushes & Hst2 & Hvp2 & Hsy2 & Htr2); auto.
    { simpl. apply core_adv; auto. }
    { simpl. apply look_adv; auto. }
    exists (pushes ++ [e]). rewrite <- !app_assoc. simpl. split.
    { eapply msteps_trans; [exact Hst|]. eapply ms_step; [apply m_reduce; exact Hr|]. auto. }
    split; auto.
    split; [etransitivity; [apply syms_app|]|etransitivity; [apply trees_app|]]; [rewrite Hsy2; reflexivity|].
    rewrite Htr2. simpl. unfold e, etree. simpl. rewrite Htr, rev_involutive. reflexivity.
Qed.

Theorem machine_complete w tr : parses G w tr -> exists stk, msteps ([], w) (stk, []) /\ maccept (stk, []) /\ tr = Node 0 (rev (trees stk)).
Proof.
  intros (r & ts & Hr & D & ->). unfold igram in Hr. rewrite nth_error_map in Hr.
  destruct (nth_error (rules g) 0) as [ir|] eqn:Hir; [|discriminate]. injection Hr as <-. change (rhs (irule ir)) with (irhs ir) in *.
  destruct (derives_sim _ _ _ D [] 0 0 [] vs_nil (core_init g)) as (po & Hst & Hvp & Hsy & Htr).
  { rewrite skipn_O. apply igram_rnodes; auto. }
  { apply look_init. }
  rewrite !app_nil_r in *. exists po. split; auto. split; [|rewrite Htr, rev_involutive; auto].
  unfold maccept. simpl. destruct (adv_core [] 0 0 (core_init g)) as (p & Hc & Hn).
  rewrite skipn_O, app_nil_r, (igram_rnodes _ _ Hir), <- Hsy in Hc. eapply act_accept_c; eauto.
Qed.

Theorem machine_unambiguous w t1 t2 : parses G w t1 -> parses G w t2 -> t1 = t2.
Proof.
  intros P1 P2. destruct (machine_complete _ _ P1) as (s1 & M1 & A1 & ->). destruct (machine_complete _ _ P2) as (s2 & M2 & A2 & ->).
  assert (Heq : (s1, @nil nat) = (s2, [])) by (eapply msteps_final_eq; eauto). congruence.
Qed.

End Complete.
End Machine.
