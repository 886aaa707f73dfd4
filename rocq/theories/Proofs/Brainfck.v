(** The interpreter of tests/brainfck.rs against the meaning of programs. *)
From Coq Require Import Arith Bool String NArith List Lia.
From Verif Require Import Base.Prelude Spec.TestLanguages Spec.Brainfck Model.Brainfck.
Import ListNotations.
Open Scope list_scope.

(** ** Programs are what has matching brackets *)
Fixpoint command_size (c : command) : nat :=
  match c with Do _ => 1 | Loop body => S (list_sum (map command_size body)) end.

Lemma command_match : forall n c, command_size c <= n -> forall d b, brackets_match d b -> brackets_match d (command_code c ++ b).
Proof.
  induction n as [|n IH]; intros [o|body] Hn d b Hb; simpl in Hn; try lia; [now destruct o|].
  simpl. rewrite <- app_assoc. simpl. assert (H : brackets_match (S d) (CloseBracket :: b)) by exact Hb. revert H. generalize (CloseBracket :: b). clear b Hb.
  intros b Hb. assert (Hs : Forall (fun c => command_size c <= n) body).
  { apply Nat.succ_le_mono in Hn. revert Hn. clear. induction body as [|c body IH]; intros H; constructor; simpl in H; [|apply IH]; lia. }
  induction Hs as [|c body Hc Hs IHs]; simpl; auto. rewrite <- app_assoc. apply IH; auto. apply IHs; auto.
  simpl in Hn. lia.
Qed.

Lemma written_match p : brackets_match 0 (written p).
Proof.
  unfold written. assert (H : brackets_match 0 []) by reflexivity. rewrite <- (app_nil_r (flat_map _ p)).
  induction p as [|c p IH]; simpl; auto. rewrite <- app_assoc. eapply command_match; eauto.
Qed.

Lemma written_app p q : written (p ++ q) = written p ++ written q.
Proof. apply flat_map_app. Qed.

(** What is written with [d] brackets open: [d + 1] programs with brackets between. *)
Fixpoint closing (ps : list (list command)) : list instruction :=
  match ps with [] => [] | p :: ps' => CloseBracket :: written p ++ closing ps' end.

Lemma match_closing : forall code d, brackets_match d code -> exists p ps, List.length ps = d /\ code = written p ++ closing ps.
Proof.
  assert (Hop : forall o code d, (exists p ps, List.length ps = d /\ code = written p ++ closing ps) ->
    exists p ps, List.length ps = d /\ op_instruction o :: code = written p ++ closing ps).
  { intros o code d (p & ps & H & ->). exists (Do o :: p), ps. auto. }
  induction code as [|i code IH]; intros d H.
  - simpl in H. subst. exists [], []. auto.
  - destruct i; simpl in H.
    1: apply (Hop GoRight); auto. 1: apply (Hop GoLeft); auto. 1: apply (Hop Increase); auto. 1: apply (Hop Decrease); auto.
    1: apply (Hop Write); auto. 1: apply (Hop Read); auto.
    + destruct (IH _ H) as (p & ps & Hl & ->). destruct ps as [|p' ps]; [discriminate|]. injection Hl as Hl.
      exists (Loop p :: p'), ps. split; auto. simpl. rewrite <- !app_assoc. reflexivity.
    + destruct d as [|d]; [easy|]. destruct (IH _ H) as (p & ps & Hl & ->). exists [], (p :: ps). split; [simpl; auto|reflexivity].
Qed.

Lemma programs_match code : brackets_match 0 code <-> exists p, written p = code.
Proof.
  split; [|intros (p & <-); apply written_match].
  intros H. destruct (match_closing _ _ H) as (p & [|] & Hl & ->); [|discriminate]. exists p. simpl. now rewrite app_nil_r.
Qed.

(** ** The tape *)
Lemma replace_length l : forall n b, List.length (replace_nth l n b) = List.length l.
Proof. induction l as [|x l IH]; intros [|n] b; simpl; auto. Qed.
Lemma replace_get l : forall n b i, n < List.length l -> nth i (replace_nth l n b) 0%N = if i =? n then b else nth i l 0%N.
Proof.
  induction l as [|x l IH]; intros [|n] b [|i] Hn; simpl in *; try lia; auto. rewrite IH by lia. reflexivity.
Qed.

(** ** Jumps *)
Lemma get_nth code pc : get code pc = nth_error code pc.
Proof.
  unfold get. destruct (Nat.ltb_spec pc (List.length code)); auto. symmetry. now apply nth_error_None.
Qed.
Lemma get_at pre i rest : get (pre ++ i :: rest) (List.length pre) = Some i.
Proof. rewrite get_nth, nth_error_app2, Nat.sub_diag; auto. Qed.
Lemma skipn_at {A} (pre rest : list A) : skipn (List.length pre) (pre ++ rest) = rest.
Proof. rewrite skipn_app, skipn_all, Nat.sub_diag. reflexivity. Qed.

Lemma skip_ok rest : forall pc, In CloseBracket rest -> exists pc', skip_to_close rest pc = Ok pc'.
Proof. induction rest as [|i rest IH]; intros pc []; [subst; simpl; eauto|]. destruct i; simpl; eauto. Qed.
Lemma back_ok code : forall pre rest, code = pre ++ rest -> In OpenBracket pre -> exists pc, back_to_open code (List.length pre) = Ok pc.
Proof.
  induction pre as [|i pre IH] using rev_ind; intros rest E Hi; [easy|]. rewrite app_length, Nat.add_1_r. cbn [back_to_open].
  rewrite <- app_assoc in E. cbn [app] in E. assert (G : get code (List.length pre) = Some i) by (rewrite E; apply get_at). rewrite G.
  apply in_app_or in Hi as [Hi|[Hi|[]]]; [|subst i; eauto]. destruct (IH _ E Hi) as (pc & ->). destruct i; eauto.
Qed.

Lemma match_close : forall rest d, brackets_match (S d) rest -> In CloseBracket rest.
Proof. induction rest as [|i rest IH]; intros d H; [discriminate|]. destruct i; simpl in *; eauto. Qed.
Lemma match_open post : forall pre, brackets_match 0 (pre ++ CloseBracket :: post) -> In OpenBracket pre.
Proof. induction pre as [|i pre IH]; intros H; [easy|]. destruct i; simpl in *; auto. easy. Qed.
Lemma match_suffix : forall pre d rest, brackets_match d (pre ++ rest) -> exists d', brackets_match d' rest.
Proof.
  induction pre as [|i pre IH]; intros d rest H; [eauto|]. destruct i; simpl in H; eauto. destruct d; [easy|eauto].
Qed.

(** ** No panics *)
Section Safe.
Variable code : list instruction.
Variable input : nat -> option N.
Hypothesis Hm : brackets_match 0 code.

Definition in_tape (s : bf_state) : Prop := bf_position s < List.length (bf_tape s).

Lemma cell_ok s : in_tape s -> cell s = Ok (nth (bf_position s) (bf_tape s) 0%N).
Proof. intros H. unfold cell. now rewrite (nth_error_nth' _ 0%N H). Qed.

Lemma advance_ok s : in_tape s -> exists s' r, advance code input s = Ok (s', r) /\ in_tape s'.
Proof.
  intros H. unfold advance. rewrite get_nth. destruct (nth_error code (bf_pc s)) as [i|] eqn:E; [|eauto].
  apply nth_error_split in E as (pre & rest & E & Hp).
  assert (H1 : in_tape (set_pc s (S (bf_pc s)))) by exact H. rewrite (cell_ok _ H1).
  destruct i; cbn [bind]; try (do 2 eexists; split; [reflexivity|]; unfold in_tape, set_cell, set_pc in *; cbn [bf_tape bf_position] in *;
    rewrite ?replace_length; auto; fail).
  - do 2 eexists. split; [reflexivity|]. unfold in_tape in *. cbn [bf_tape bf_position set_pc] in *.
    destruct (Nat.eqb_spec (S (bf_position s)) (List.length (bf_tape s))); [rewrite app_length; simpl|]; lia.
  - cbn [set_pc bf_position]. destruct (bf_position s) as [|p] eqn:Ep; [do 2 eexists; split; [reflexivity|exact H1]|].
    do 2 eexists. split; [reflexivity|]. unfold in_tape in *. cbn in *. lia.
  - cbn [set_pc bf_reads]. destruct (input (bf_reads s)); [|do 2 eexists; split; [reflexivity|exact H]].
    rewrite cell_ok by exact H. cbn [bind]. do 2 eexists. split; [reflexivity|]. unfold in_tape, set_cell in *. cbn in *. now rewrite replace_length.
  - destruct (_ =? 0)%N; [|do 2 eexists; split; [reflexivity|exact H]].
    cbn [set_pc bf_pc].
    assert (Hr : In CloseBracket rest).
    { rewrite E in Hm. destruct (match_suffix _ _ _ Hm) as (d & Hd). simpl in Hd. eapply match_close; eauto. }
    assert (Es : skipn (S (bf_pc s)) code = rest).
    { rewrite <- Hp, E. change (OpenBracket :: rest) with ([OpenBracket] ++ rest). rewrite app_assoc.
      rewrite <- (skipn_at (pre ++ [OpenBracket]) rest) at 2. f_equal. rewrite app_length. simpl. lia. }
    rewrite Es. destruct (skip_ok rest (S (bf_pc s)) Hr) as (pc & ->). cbn [bind]. do 2 eexists. split; [reflexivity|exact H].
  - destruct (_ =? 0)%N; [do 2 eexists; split; [reflexivity|exact H]|]. cbn [set_pc bf_pc pred].
    destruct (back_ok code pre (CloseBracket :: rest) E) as (pc & Hb); [apply (match_open rest); now rewrite <- E|].
    rewrite <- Hp, Hb. cbn [bind]. do 2 eexists. split; [reflexivity|exact H].
Qed.

Lemma next_ok fuel : forall s, in_tape s -> next code input fuel s = Diverge \/ exists s' r, next code input fuel s = Ok (s', r) /\ in_tape s'.
Proof.
  induction fuel as [|fuel IH]; intros s H; [auto|]. cbn [next]. destruct (advance_ok s H) as (s' & r & -> & H'). cbn [bind].
  destruct r as [[]|[b|]]; eauto.
Qed.

Lemma nexts_ok fuel n : forall s, in_tape s -> nexts code input n fuel s = Diverge \/ exists rs, nexts code input n fuel s = Ok rs.
Proof.
  induction n as [|n IH]; intros s H; [simpl; eauto|]. cbn [nexts].
  destruct (next_ok fuel s H) as [->|(s' & r & -> & H')]; [auto|]. cbn [bind fst snd]. destruct (IH s' H') as [->|(rs & ->)]; cbn [bind]; eauto.
Qed.

Lemma execute_safe n fuel : nexts code input n fuel execute = Diverge \/ exists rs, nexts code input n fuel execute = Ok rs.
Proof. apply nexts_ok. unfold in_tape. simpl. lia. Qed.
End Safe.
