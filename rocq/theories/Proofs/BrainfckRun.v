(** Programs without nested loops: the interpreter and the meaning go step by step. *)
From Coq Require Import Arith Bool String NArith List Lia.
From Verif Require Import Base.Prelude Spec.TestLanguages Spec.Brainfck Model.Brainfck Proofs.Brainfck.
Import ListNotations.
Open Scope list_scope.

Section Run.
Variable code : list instruction.
Variable input : nat -> option N.

Definition ops (b : list op) : list instruction := map op_instruction b.
Lemma written_ops b : written (map Do b) = ops b.
Proof. unfold written, ops. induction b as [|o b IH]; simpl; auto. now rewrite IH. Qed.
Lemma all_ops body : Forall is_op body -> exists b, body = map Do b.
Proof.
  induction 1 as [|[o|x] body Hc H IH]; [now exists []| |easy]. destruct IH as (b & ->). now exists (o :: b).
Qed.

Inductive located : nat -> list command -> Prop :=
| at_top pre k : code = pre ++ written k -> unnested k -> located (List.length pre) k
| at_body pre b1 b2 k : code = pre ++ OpenBracket :: ops b1 ++ ops b2 ++ CloseBracket :: written k -> unnested k ->
    located (S (List.length pre) + List.length b1) (map Do b2 ++ Loop (map Do (b1 ++ b2)) :: k).

Definition alike (m : memory) (s : bf_state) : Prop :=
  in_tape s /\ bf_position s = place m /\ bf_reads s = asked m /\ forall i, nth i (bf_tape s) 0%N = byte_at m i.
Definition related (c : list command * memory) (s : bf_state) : Prop := located (bf_pc s) (fst c) /\ alike (snd c) s.

Lemma alike_pc m s pc : alike m s -> alike m (set_pc s pc).
Proof. exact (fun H => H). Qed.
Lemma alike_byte m s : alike m s -> cell s = Ok (byte m).
Proof. intros (H1 & H2 & H3 & H4). rewrite cell_ok by auto. unfold byte. now rewrite H4, H2. Qed.
Lemma alike_put m s b : alike m s -> alike (put m b) (set_cell s b).
Proof.
  intros (H1 & H2 & H3 & H4). split; [|split; [|split]]; auto.
  - unfold in_tape, set_cell in *. cbn. now rewrite replace_length.
  - intros i. cbn [set_cell bf_tape put byte_at]. rewrite replace_get by exact H1. now rewrite H2, H4.
Qed.

Definition result_of (o : option event) : bf_error + option N :=
  match o with None => inr None | Some (Wrote b) => inr (Some b) | Some NoInput => inl EndOfInput | Some NoPlace => inl ProgramCounterBelowZero end.

Lemma do_op o m s : alike m s -> get code (bf_pc s) = Some (op_instruction o) ->
  exists s', advance code input s = Ok (s', result_of (snd (perform input o m))) /\ bf_pc s' = S (bf_pc s) /\ alike (fst (perform input o m)) s'.
Proof.
  intros Ha E. unfold advance. rewrite E. pose proof (alike_pc m s (S (bf_pc s)) Ha) as Hp.
  destruct o; cbn [op_instruction perform].
  - eexists. split; [reflexivity|]. split; [reflexivity|]. cbn [fst]. destruct Ha as (H1 & H2 & H3 & H4). unfold in_tape in H1.
    split; [|split; [|split]]; cbn [set_pc bf_tape bf_position bf_reads byte_at place asked]; auto.
    + unfold in_tape. cbn [bf_tape bf_position set_pc]. destruct (Nat.eqb_spec (S (bf_position s)) (List.length (bf_tape s))); [rewrite app_length; simpl|]; lia.
    + intros i. rewrite <- H4. destruct (Nat.eqb_spec (S (bf_position s)) (List.length (bf_tape s))); auto.
      destruct (Nat.lt_trichotomy i (List.length (bf_tape s))) as [Hi|[Hi|Hi]].
      * now rewrite app_nth1.
      * subst i. rewrite app_nth2, Nat.sub_diag by lia. now rewrite (nth_overflow (bf_tape s)) by lia.
      * rewrite !nth_overflow; auto; [lia|]. rewrite app_length. simpl. lia.
  - cbn [set_pc bf_position]. pose proof Ha as (H1 & H2 & H3 & H4). rewrite <- H2. destruct (bf_position s) as [|p] eqn:Ep; (eexists; split; [reflexivity|]; split; [reflexivity|]).
    + exact Hp.
    + unfold in_tape in H1. rewrite Ep in H1. split; [|split; [|split]]; auto. unfold in_tape. cbn. lia.
  - rewrite (alike_byte _ _ Hp). cbn [bind]. eexists. split; [reflexivity|]. split; [reflexivity|]. now apply alike_put.
  - rewrite (alike_byte _ _ Hp). cbn [bind]. eexists. split; [reflexivity|]. split; [reflexivity|]. now apply alike_put.
  - rewrite (alike_byte _ _ Hp). cbn [bind]. eexists. split; [reflexivity|]. split; [reflexivity|]. exact Hp.
  - cbn [set_pc bf_reads]. destruct Ha as (H1 & H2 & H3 & H4). rewrite <- H3.
    assert (Hq : alike (mk_memory (byte_at m) (place m) (S (bf_reads s))) (mk_bf (S (bf_pc s)) (bf_tape s) (bf_position s) (S (bf_reads s))))
      by (repeat split; auto).
    destruct (input (bf_reads s)) as [b|].
    + change (cell _) with (cell (mk_bf (S (bf_pc s)) (bf_tape s) (bf_position s) (S (bf_reads s)))). rewrite (alike_byte _ _ Hq). cbn [bind].
      eexists. split; [reflexivity|]. split; [reflexivity|]. apply (alike_put _ _ b Hq).
    + eexists. split; [reflexivity|]. split; [reflexivity|]. exact Hq.
Qed.

Lemma skip_body : forall b rest pc, skip_to_close (ops b ++ CloseBracket :: rest) pc = Ok (pc + List.length b).
Proof.
  induction b as [|o b IH]; intros rest pc; simpl; [f_equal; lia|].
  replace (pc + S (List.length b)) with (S pc + List.length b) by lia. rewrite <- (IH rest). now destruct o.
Qed.

Lemma back_body pre : forall b rest, code = pre ++ OpenBracket :: ops b ++ rest -> back_to_open code (S (List.length pre) + List.length b) = Ok (S (List.length pre)).
Proof.
  induction b as [|o b IH] using rev_ind; intros rest E.
  - rewrite Nat.add_0_r. cbn [back_to_open]. rewrite E, get_at. reflexivity.
  - rewrite app_length. cbn [List.length]. rewrite Nat.add_assoc, Nat.add_1_r. cbn [back_to_open Nat.add].
    assert (G : get code (S (List.length pre + List.length b)) = Some (op_instruction o)).
    { rewrite E. unfold ops. rewrite map_app. cbn [map]. rewrite <- app_assoc. cbn [app]. change (OpenBracket :: map op_instruction b ++ op_instruction o :: rest) with ((OpenBracket :: map op_instruction b) ++ op_instruction o :: rest).
      rewrite app_assoc. rewrite <- (get_at (pre ++ OpenBracket :: map op_instruction b) (op_instruction o) rest). f_equal. rewrite app_length. cbn [List.length]. rewrite map_length. lia. }
    rewrite G. unfold ops in *. rewrite map_app, <- app_assoc in E. specialize (IH _ E). destruct o; exact IH.
Qed.

Lemma lockstep c s : related c s ->
  (fst c = [] /\ advance code input s = Ok (s, inl Halt)) \/
  exists o c' s', run_step input c o c' /\ advance code input s = Ok (s', result_of o) /\ related c' s'.
Proof.
  destruct c as [k m]. intros (Hl & Ha). cbn [fst snd] in *.
  remember (bf_pc s) as pc eqn:Epc. destruct Hl as [pre k E Hu|pre b1 b2 k E Hu].
  - destruct k as [|[o|body] k].
    + left. split; auto. unfold advance. rewrite <- Epc. simpl in E. rewrite app_nil_r in E. rewrite get_nth, E.
      now rewrite (proj2 (nth_error_None pre (List.length pre))) by lia.
    + right. destruct (do_op o m s Ha) as (s' & Hs & Hp & Ha'); [rewrite <- Epc, E; apply get_at|].
      do 3 eexists. split; [constructor|]. split; [exact Hs|]. split; [|exact Ha']. cbn [fst snd]. rewrite Hp, <- Epc.
      replace (S (List.length pre)) with (List.length (pre ++ [op_instruction o])) by (rewrite app_length; simpl; lia).
      constructor; [|now inversion Hu]. rewrite E, <- app_assoc. reflexivity.
    + right. inversion Hu as [|x y Hb Hu']; subst x y. destruct (all_ops _ Hb) as (b & ->).
      assert (E' : code = pre ++ OpenBracket :: ops b ++ CloseBracket :: written k).
      { rewrite E. unfold written at 1. cbn [flat_map command_code]. fold (written (map Do b)). rewrite written_ops. fold (written k). cbn [app]. now rewrite <- app_assoc. }
      pose proof (alike_pc m s (S (bf_pc s)) Ha) as Hp. unfold advance. rewrite <- Epc in *. assert (G : get code (List.length pre) = Some OpenBracket) by (rewrite E'; apply get_at). rewrite G, (alike_byte _ _ Hp). cbn [bind].
      destruct (N.eqb_spec (byte m) 0) as [Hz|Hz].
      * cbn [set_pc bf_pc]. do 3 eexists. split; [now apply step_leave|]. split.
        -- replace (skipn (S (List.length pre)) _) with (ops b ++ CloseBracket :: written k).
           ++ rewrite skip_body. cbn [bind]. reflexivity.
           ++ rewrite E'. change (OpenBracket :: ops b ++ CloseBracket :: written k) with ([OpenBracket] ++ ops b ++ CloseBracket :: written k). rewrite app_assoc.
              rewrite <- (skipn_at (pre ++ [OpenBracket]) (ops b ++ CloseBracket :: written k)) at 1. f_equal. rewrite app_length. simpl. lia.
        -- split; [|exact Hp]. cbn [fst set_pc bf_pc].
           replace (S (S (List.length pre) + List.length b)) with (List.length (pre ++ OpenBracket :: ops b ++ [CloseBracket])).
           2:{ unfold ops. rewrite !app_length. cbn [List.length]. rewrite app_length, map_length. simpl. lia. }
           constructor; auto. rewrite E'. rewrite <- app_assoc. cbn [app]. now rewrite <- app_assoc.
      * do 3 eexists. split; [now apply step_enter|]. split; [reflexivity|]. split; [|exact Hp]. cbn [fst set_pc bf_pc].
        rewrite <- (Nat.add_0_r (S (List.length pre))). apply (at_body pre [] b k); auto.
  - right. destruct b2 as [|o b2].
    + rewrite app_nil_r in *. cbn [ops map app] in *.
      assert (G : get code (bf_pc s) = Some CloseBracket).
      { rewrite <- Epc, E. change (OpenBracket :: ops b1 ++ CloseBracket :: written k) with ((OpenBracket :: ops b1) ++ CloseBracket :: written k). rewrite app_assoc.
        rewrite <- (get_at (pre ++ OpenBracket :: ops b1) CloseBracket (written k)). f_equal. unfold ops. rewrite app_length. cbn [List.length]. rewrite map_length. lia. }
      pose proof (alike_pc m s (S (bf_pc s)) Ha) as Hp. unfold advance. rewrite G. rewrite (alike_byte _ _ Hp). cbn [bind].
      destruct (N.eqb_spec (byte m) 0) as [Hz|Hz].
      * do 3 eexists. split; [now apply step_leave|]. split; [reflexivity|]. split; [|exact Hp]. cbn [fst set_pc bf_pc]. rewrite <- Epc.
        replace (S (S (List.length pre) + List.length b1)) with (List.length (pre ++ OpenBracket :: ops b1 ++ [CloseBracket])).
        2:{ unfold ops. rewrite !app_length. cbn [List.length]. rewrite app_length, map_length. simpl. lia. }
        constructor; auto. rewrite E. rewrite <- app_assoc. cbn [app]. now rewrite <- app_assoc.
      * cbn [set_pc bf_pc pred]. rewrite <- Epc, (back_body pre b1 _ E). cbn [bind]. do 3 eexists. split; [now apply step_enter|]. split; [reflexivity|].
        split; [|exact Ha]. cbn [fst set_pc bf_pc]. rewrite <- (Nat.add_0_r (S (List.length pre))). now apply (at_body pre [] b1 k).
    + destruct (do_op o m s Ha) as (s' & Hs & Hp & Ha').
      { rewrite <- Epc, E. unfold ops. cbn [map app]. change (OpenBracket :: map op_instruction b1 ++ op_instruction o :: map op_instruction b2 ++ CloseBracket :: written k)
          with ((OpenBracket :: map op_instruction b1) ++ op_instruction o :: map op_instruction b2 ++ CloseBracket :: written k). rewrite app_assoc.
        rewrite <- (get_at (pre ++ OpenBracket :: map op_instruction b1) (op_instruction o) (map op_instruction b2 ++ CloseBracket :: written k)). f_equal.
        rewrite app_length. cbn [List.length]. rewrite map_length. lia. }
      do 3 eexists. split; [constructor|]. split; [exact Hs|]. split; [|exact Ha']. cbn [fst snd]. rewrite Hp, <- Epc.
      replace (S (S (List.length pre) + List.length b1)) with (S (List.length pre) + List.length (b1 ++ [o])) by (rewrite app_length; simpl; lia).
      replace (b1 ++ o :: b2) with ((b1 ++ [o]) ++ b2) by (now rewrite <- app_assoc). apply at_body; auto.
      rewrite E. unfold ops. rewrite map_app. cbn [map app]. now rewrite <- app_assoc.
Qed.

Lemma step_unique c o c' : run_step input c o c' -> forall o2 c2, run_step input c o2 c2 -> o2 = o /\ c2 = c'.
Proof. destruct 1; intros o2 c2 H2; inversion H2; subst; auto; congruence. Qed.

Lemma next_seen fuel : forall c s s' r, related c s -> next code input fuel s = Ok (s', r) ->
  exists o c', seen_next input c o c' /\ r = told o /\ related c' s'.
Proof.
  induction fuel as [|fuel IH]; intros c s s' r Hr H; [discriminate|]. cbn [next] in H.
  destruct (lockstep c s Hr) as [(E & A)|(o & c1 & s1 & Hs & A & R)]; rewrite A in H; cbn [bind] in H.
  - injection H as <- <-. exists None, c. destruct c as [k m]. cbn in E. subst. repeat split; auto; try apply Hr. constructor.
  - destruct o as [[b| |]|]; cbn [result_of] in H; [injection H as <- <-..|].
    1-3: do 2 eexists; split; [apply seen_event; exact Hs|]; now split.
    destruct (IH _ _ _ _ R H) as (o & c' & H1 & H2 & H3). do 2 eexists. split; [eapply seen_later; eauto|auto].
Qed.

Lemma seen_next_next c o c' : seen_next input c o c' -> forall s, related c s ->
  exists n, forall fuel, n <= fuel -> exists s', next code input fuel s = Ok (s', told o) /\ related c' s'.
Proof.
  induction 1 as [m|c e c' Hs|c c1 o c2 Hs Hn IH]; intros s Hr; destruct (lockstep _ s Hr) as [(E & A)|(o1 & c3 & s1 & Hs1 & A & R)].
  - exists 1. intros [|fuel] Hf; [lia|]. cbn [next]. rewrite A. cbn [bind]. eauto.
  - inversion Hs1.
  - destruct c; cbn in E; subst. inversion Hs.
  - destruct (step_unique _ _ _ Hs _ _ Hs1) as (-> & ->). exists 1. intros [|fuel] Hf; [lia|]. cbn [next]. rewrite A. cbn [bind].
    destruct e; cbn [result_of told]; eauto.
  - destruct c; cbn in E; subst. inversion Hs.
  - destruct (step_unique _ _ _ Hs _ _ Hs1) as (-> & ->). destruct (IH _ R) as (n & Hn'). exists (S n). intros [|fuel] Hf; [lia|]. cbn [next]. rewrite A. cbn [bind result_of].
    apply Hn'. lia.
Qed.

Lemma nexts_seen fuel n : forall c s rs, related c s -> nexts code input n fuel s = Ok rs ->
  exists os, seen input c os /\ rs = map told os /\ List.length os = n.
Proof.
  induction n as [|n IH]; intros c s rs Hr H; cbn [nexts] in H; [injection H as <-; exists []; repeat split; constructor|].
  destruct (next code input fuel s) as [[s' r]| | |] eqn:E; try discriminate. cbn [bind fst snd] in H.
  destruct (next_seen _ _ _ _ _ Hr E) as (o & c' & H1 & -> & H3).
  destruct (nexts code input n fuel s') as [rs'| | |] eqn:E'; try discriminate. injection H as <-.
  destruct (IH _ _ _ H3 E') as (os & H4 & -> & <-). exists (o :: os). repeat split. econstructor; eauto.
Qed.

Lemma seen_nexts c os : seen input c os -> forall s, related c s ->
  exists n, forall fuel, n <= fuel -> nexts code input (List.length os) fuel s = Ok (map told os).
Proof.
  induction 1 as [c|c o c' os Hn Hs IH]; intros s Hr; [exists 0; auto|].
  destruct (seen_next_next _ _ _ Hn s Hr) as (n & Hn1). destruct (Hn1 n (le_n _)) as (s' & Hx & R). destruct (IH _ R) as (n' & Hn2).
  exists (n + n'). intros fuel Hf. cbn [nexts List.length map]. 
  assert (Hy : next code input fuel s = Ok (s', told o)).
  { clear - Hx Hf. assert (Hm : forall n fuel s r, n <= fuel -> next code input n s = Ok r -> next code input fuel s = Ok r).
    { clear. induction n as [|n IH]; intros [|fuel] s r Hf H; try discriminate; [lia|]. cbn [next] in *.
      destruct (advance code input s) as [[s1 [[]|[b|]]]| | |]; cbn [bind] in *; auto. apply IH; auto. lia. }
    eapply Hm; [|exact Hx]. lia. }
  rewrite Hy. cbn [bind fst snd]. rewrite Hn2 by lia. reflexivity.
Qed.
End Run.

Lemma start_related p : unnested p -> related (written p) (p, blank) execute.
Proof.
  intros H. split; [apply (at_top (written p) [] p); auto|]. repeat split; auto; [unfold in_tape; simpl; lia|]. intros [|[|i]]; reflexivity.
Qed.

Lemma unnested_runs p input : unnested p ->
  (forall n fuel rs, nexts (written p) input n fuel execute = Ok rs -> exists os, seen input (p, blank) os /\ rs = map told os /\ List.length os = n) /\
  (forall os, seen input (p, blank) os -> exists n, forall fuel, n <= fuel -> nexts (written p) input (List.length os) fuel execute = Ok (map told os)).
Proof.
  intros H. pose proof (start_related p H) as R. split; intros; [eapply nexts_seen|eapply seen_nexts]; eauto.
Qed.

(** ** Nested loops: [[].] writes a byte, where it should do nothing *)
Lemma nested_wrong : let p := [Loop [Loop []; Do Write]] in
  nexts (written p) (fun _ => None) 1 10 execute = Ok [Some (inr 0%N)] /\
  seen (fun _ => None) (p, blank) [None] /\ forall os, seen (fun _ => None) (p, blank) os -> map told os <> [Some (inr 0%N)].
Proof.
  cbn zeta. split; [vm_compute; reflexivity|]. split.
  - econstructor; [|constructor]. eapply seen_later; [apply step_leave; reflexivity|]. constructor.
  - intros os H E. inversion H as [|c o c' os' H1 H2]; subst; [discriminate|]. injection E as E _. clear H H2.
    repeat match goal with
    | H : byte blank <> 0%N |- _ => now destruct H
    | H : run_step _ (_, _) _ _ |- _ => inversion H; clear H; subst
    | H : seen_next _ (_, _) _ _ |- _ => inversion H; clear H; subst
    end; discriminate.
Qed.

(** ... and [[-]+] never ends, where it should do nothing. *)
Lemma nested_endless : let p := [Loop [Loop [Do Decrease]; Do Increase]] in
  (forall fuel, nexts (written p) (fun _ => None) 1 fuel execute = Diverge) /\ seen (fun _ => None) (p, blank) [None].
Proof.
  cbn zeta. split.
  - set (code := written _). assert (H : forall n fuel, fuel <= n -> next code (fun _ => None) fuel (mk_bf 4 [0%N] 0 0) = Diverge).
    { induction n as [|n IH]; intros fuel Hf; [destruct fuel; [reflexivity|lia]|].
      destruct fuel as [|[|[|[|fuel]]]]; try reflexivity. change (next code (fun _ => None) fuel (mk_bf 4 [0%N] 0 0) = Diverge). apply IH. lia. }
    intros [|fuel]; [reflexivity|]. cbn [nexts]. change (next code (fun _ => None) (S fuel) execute) with (next code (fun _ => None) fuel (mk_bf 4 [0%N] 0 0)).
    now rewrite (H fuel fuel).
  - econstructor; [|constructor]. eapply seen_later; [apply step_leave; reflexivity|]. constructor.
Qed.
