(** Proofs about the end of a conversation. *)
From Coq Require Import Lia.
From Verif Require Import Base Lib Address Var Value SetVar Flags Comparator Message EditHeader Expr Event
  Notify Vacation Spam AddrTest Mime Sieve Run AckSpec AckProofs.
Import ListNotations.

Section P.
  Variable E : renv.
  Hypothesis registered : forall n x, E_scripts E n = Some x -> keeps_envelope x.
  Definition kept_in (st : list frame) (ca : list (script_name * sieve)) : Prop :=
    Forall (fun f => keeps_envelope (f_script f)) st /\ Forall (fun c => keeps_envelope (snd c)) ca.
  Definition kept (s : rst) : Prop := kept_in (r_stack s) (r_cache s).
  Definition ended (s : rst) : Prop :=
    r_queue s = [] /\ match r_stack s with [] => True | f :: _ => length (s_code (f_script f)) < r_pos s end.
  Definition fine (r : sres) : Prop :=
    match r with
    | SCont s' => kept s' /\ r_queue s' = []
    | SYield s' _ => kept s'
    | SEnd s' => kept s' /\ r_queue s' = [] /\ r_stack s' = []
    | SNone s' => kept s' /\ ended s'
    | SPanic => True
    end.
  Lemma kept_place s s' : kept s -> same_place s s' -> kept s'.
  Proof. intros K (A & B & _). unfold kept. now rewrite A, B. Qed.
  Lemma fail_fine s e : kept s -> fine (fail E s e).
  Proof.
    intros [_ K]. unfold fail. cbn [fine]. destruct (finish_stack E s) as [F G]. unfold kept. rewrite F, G. split; [constructor|exact K].
  Qed.
  Lemma pop_fine s : kept s -> r_queue s = [] -> fine (pop_frame s).
  Proof.
    intros [A B] Q. unfold pop_frame. destruct (r_stack s) as [|f [|g rest]] eqn:S; cbn.
    - split; [|auto]. unfold kept. rewrite S. split; [constructor|exact B].
    - split; [|auto]. split; [constructor|exact B].
    - split; [|exact Q]. split; [exact (Forall_inv_tail A)|exact B].
  Qed.
  Lemma value_fine code s k : kept s -> (forall v, fine (k v (w_estack [] (w_epos 0 s)))) -> fine (with_value E code s k).
  Proof. intros K H. unfold with_value. destruct (eval_expression _ _ _ _ _ _ _); try exact Logic.I; [apply H|exact K]. Qed.
  Lemma cached_keeps n l x : cache_get n l = Some x -> Forall (fun c => keeps_envelope (snd c)) l -> keeps_envelope x.
  Proof.
    induction l as [|[k y] l IH]; cbn [cache_get]; [discriminate|]. intros H F. destruct (script_name_eqb n k); [injection H as <-; exact (Forall_inv F)|].
    apply IH; [exact H|exact (Forall_inv_tail F)].
  Qed.
  Lemma insert_keeps n x l : keeps_envelope x -> Forall (fun c => keeps_envelope (snd c)) l -> Forall (fun c => keeps_envelope (snd c)) (cache_insert n x l).
  Proof.
    intros X F. induction l as [|[k y] l IH]; cbn [cache_insert]; [constructor; [exact X|constructor]|].
    destruct (script_name_eqb n k); constructor; try exact X; try exact (Forall_inv F); try exact (Forall_inv_tail F). exact (IH (Forall_inv_tail F)).
  Qed.
  Lemma straight_fine i s : straight i -> keeps i -> r_queue s = [] -> kept s -> fine (exec_instr E i s).
  Proof.
    intros S K Q O. pose proof (straight_settled E i s S K Q) as Se.
    destruct (exec_instr E i s) as [s'|s' o|s'|s'|]; cbn [settled fine] in *; try (now destruct Se).
    - destruct Se as [Q' Se]. split; [eapply kept_place; eauto|exact Q'].
    - eapply kept_place; eauto.
  Qed.
  Lemma instr_fine i s : keeps i -> kept s -> r_queue s = [] -> fine (exec_instr E i s).
  Proof.
    intros K O Q. destruct i; try (apply straight_fine; solve [auto|exact Logic.I]); cbn [exec_instr].
    - destruct (find _ _) as [[]|]; try (apply fail_fine; exact O). split; [exact O|exact Q].
    - split; [|split; [exact Q|reflexivity]]. split; [constructor|exact (proj2 O)].
    - split; [exact O|exact Q].
    - destruct (r_test s); (split; [exact O|exact Q]).
    - destruct (r_test s); (split; [exact O|exact Q]).
    - destruct (exec_test E s t) as [|v s'|e neg|e] eqn:T; try exact Logic.I; [|exact O|apply fail_fine; exact O].
      destruct (test_place E _ _ _ _ T) as [P R]. split; [exact (kept_place s (w_test v s') O P)|]. cbn. congruence.
    - apply value_fine; [exact O|]. intro v. split; [exact O|exact Q].
    - destruct (r_iter s), (r_iters s) as [|[]]; (split; [exact O|exact Q]).
    - apply value_fine; [exact O|]. intro v. destruct (to_bool v); (split; [exact O|exact Q]).
    - apply value_fine; [exact O|]. intro v. match goal with |- fine (SCont (assign ?r ?x)) => destruct (assign_place r x) as [P R]; assert (N : snd r = None) end.
      { destruct name; try reflexivity. destruct K. }
      split; [exact (kept_place s _ O P)|]. refine (eq_trans (R N) _). exact Q.
    - unfold exec_include. destruct (v_is_empty _); [split; [exact O|exact Q]|]. destruct (_ || _); [|split; [exact O|exact Q]].
      destruct (Nat.ltb _ _); [|apply fail_fine; exact O]. destruct (opt_or _ _) as [x|] eqn:X; [|exact O]. split; [|exact Q].
      split; [|exact (proj2 O)]. constructor; [|exact (proj1 O)]. cbn [f_script].
      destruct (cache_get _ (r_cache s)) as [y|] eqn:Y; cbn [opt_or] in X; [injection X as <-; exact (cached_keeps _ _ _ Y (proj2 O))|exact (registered _ _ X)].
    - apply pop_fine; assumption.
    - pose proof (fail_fine s (ErInvalid []) O) as F. exact F.
    - apply fail_fine. exact O.
  Qed.
  Lemma step_fine s : kept s -> r_queue s = [] -> fine (step E s).
  Proof.
    intros O Q. unfold step. destruct (r_stack s) as [|f rest] eqn:S; [split; [exact O|split; [exact Q|exact S]]|].
    destruct (Nat.ltb _ _) eqn:L; [split; [exact O|split; [exact Q|rewrite S; now apply Nat.ltb_lt]]|].
    destruct (next_instr s) as [i|] eqn:N; [|apply pop_fine; assumption]. destruct (Nat.ltb (E_cpu E) _); [apply (fail_fine (w_instrs (r_instrs s + 1) s)); exact O|].
    apply instr_fine; [|exact O|exact Q]. unfold next_instr in N. rewrite S in N. pose proof (proj1 O) as A. rewrite S in A. exact (Forall_inv A i (nth_error_In _ _ N)).
  Qed.
  Lemma finale_none s s' : finale E s = (s', None) -> s' = s.
  Proof. unfold finale. destruct (r_final s) as [[]|]; try (intro H; congruence). destruct (build_message_id _ _) as [s2 [e|]]; intro H; congruence. Qed.
  Lemma finale_kept s : kept s -> kept (fst (finale E s)).
  Proof. intro K. destruct (finale_stack E s) as [A B]. unfold kept. now rewrite A, B. Qed.
  Lemma loop_fine n : forall s s' o, kept s -> r_queue s = [] -> loop E n s = RRet s' o -> kept s' /\ (o = None -> ended s').
  Proof.
    induction n as [|n IH]; intros s s' o K Q H; [discriminate|]. cbn [loop] in H. pose proof (step_fine s K Q) as F.
    destruct (step E s) as [s1|s1 o1|s1|s1|]; cbn [fine] in F; try discriminate.
    - exact (IH _ _ _ (proj1 F) (proj2 F) H).
    - injection H as <- <-. split; [exact F|discriminate].
    - destruct F as (F & Q1 & S1). pose proof (finale_kept s1 F) as G. destruct (finale E s1) as [s2 o2] eqn:Fi. injection H as <- <-. split; [exact G|].
      intros ->. rewrite (finale_none _ _ Fi). split; [exact Q1|]. now rewrite S1.
    - injection H as <- <-. split; [apply F|]. intros _. apply F.
  Qed.
  Lemma feed_kept i s : kept s -> (forall n x, i = InScript n x -> keeps_envelope x) -> kept (feed i s).
  Proof.
    intros [A B] H. destruct i as [| |v|n x]; try (split; assumption). cbn [feed]. destruct (_ && _); [|split; assumption].
    split; [constructor; [exact (H n x eq_refl)|exact A]|exact (insert_keeps n x _ (H n x eq_refl) B)].
  Qed.
  Lemma run_fine i s s' o : kept s -> (forall n x, i = InScript n x -> keeps_envelope x) -> run E i s = RRet s' o -> kept s' /\ (o = None -> ended s').
  Proof.
    intros K H R. pose proof (feed_kept i s K H) as F. unfold run in R. set (t := feed i s) in *. destruct (r_queue t) as [|e q] eqn:Q.
    - destruct (r_stack t) as [|f rest] eqn:S; [|exact (loop_fine _ _ _ _ F Q R)]. injection R as <- <-. split; [exact F|]. intros _. split; [exact Q|]. now rewrite S.
    - injection R as <- <-. split; [exact F|discriminate].
  Qed.
  Lemma run_ended i s s' o : ended s -> ~ hands_script i -> run E i s = RRet s' o -> o = None /\ ended s'.
  Proof.
    intros [Q D] N R. assert (F : ended (feed i s)) by (destruct i; [split; assumption|split; assumption|split; assumption|destruct (N Logic.I)]).
    destruct F as [Q' D']. unfold run in R. set (t := feed i s) in *. rewrite Q' in R. destruct (r_stack t) as [|f rest] eqn:S.
    - injection R as <- <-. split; [reflexivity|]. split; [exact Q'|]. now rewrite S.
    - unfold enough in R. rewrite Nat.add_1_r in R. cbn [loop] in R. unfold step in R. rewrite S in R. apply Nat.ltb_lt in D' as D2. rewrite D2 in R. injection R as <- <-.
      split; [reflexivity|]. split; [exact Q'|]. now rewrite S.
  Qed.
  Lemma converse_ended inputs : forall s outs s', ended s -> Forall (fun i => ~ hands_script i) inputs -> converse_run E inputs s = Some (outs, s') ->
    Forall (fun o => o = None) outs.
  Proof.
    induction inputs as [|i inputs IH]; intros s outs s' D N H; cbn [converse_run] in H; [injection H as <- _; constructor|].
    destruct (run E i s) as [s1 o| |] eqn:R; try discriminate H. destruct (converse_run E inputs s1) as [[os s2]|] eqn:C; [|discriminate H].
    injection H as <- <-. destruct (run_ended _ _ _ _ D (Forall_inv N) R) as [-> D1]. constructor; [reflexivity|]. exact (IH _ _ _ D1 (Forall_inv_tail N) C).
  Qed.
  Lemma converse_end k : forall inputs s outs s', kept s -> (forall n x, In (InScript n x) inputs -> keeps_envelope x) ->
    converse_run E inputs s = Some (outs, s') -> nth_error outs k = Some None -> Forall (fun i => ~ hands_script i) (skipn (S k) inputs) ->
    Forall (fun o => o = None) (skipn (S k) outs).
  Proof.
    induction k as [|k IH]; intros [|i inputs] s outs s' K W H O N; cbn [converse_run] in H; try (injection H as <- _; discriminate O).
    - destruct (run E i s) as [s1 o| |] eqn:R; try discriminate H. destruct (converse_run E inputs s1) as [[os s2]|] eqn:C; [|discriminate H].
      injection H as <- <-. cbn [fst nth_error] in O. injection O as ->. destruct (run_fine _ _ _ _ K (fun n x Q => W n x (or_introl Q)) R) as [_ D].
      exact (converse_ended _ _ _ _ (D eq_refl) N C).
    - destruct (run E i s) as [s1 o| |] eqn:R; try discriminate H. destruct (converse_run E inputs s1) as [[os s2]|] eqn:C; [|discriminate H].
      injection H as <- <-. cbn [fst nth_error] in O. destruct (run_fine _ _ _ _ K (fun n x Q => W n x (or_introl Q)) R) as [K1 _].
      exact (IH _ _ _ _ K1 (fun n x Q => W n x (or_intror Q)) C O N).
  Qed.
End P.
