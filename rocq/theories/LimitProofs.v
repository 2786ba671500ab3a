(** Proofs about the limits of a run. *)
From Coq Require Import Lia.
From Verif Require Import Base Lib Address Var Value SetVar Flags Comparator Message EditHeader Expr Event
  Notify Vacation Spam AddrTest Mime Sieve Run LimitSpec.
Import ListNotations.

Section P.
  Variables (E : renv) (cpu includes : nat).
  Notation E' := (with_limits cpu includes E).
  Hypothesis more_cpu : E_cpu E <= cpu.
  Hypothesis more_includes : E_max_includes E <= includes.

  Lemma other_instr i s : (forall a b c d, i <> IxInclude a b c d) -> exec_instr E' i s = exec_instr E i s.
  Proof. intro N. destruct i; try reflexivity. now destruct (N name global once optional). Qed.
  Lemma include_limit a b c d s : exec_instr E' (IxInclude a b c d) s = exec_instr E (IxInclude a b c d) s \/
    exists s', exec_instr E (IxInclude a b c d) s = SYield s' (OError ErIncludes).
  Proof.
    cbn [exec_instr]. unfold exec_include. change (ev E' s a) with (ev E s a). change (E_L E') with (E_L E). change (E_scripts E') with (E_scripts E).
    change (E_max_includes E') with includes. destruct (v_is_empty _); [now left|]. destruct (negb c || _); [|now left].
    destruct (Nat.ltb (length (r_stack s)) (E_max_includes E)) eqn:L.
    - left. apply Nat.ltb_lt in L. now rewrite (proj2 (Nat.ltb_lt (length (r_stack s)) includes)) by lia.
    - right. unfold fail. eauto.
  Qed.
  Lemma step_limit s : step E' s = step E s \/ exists s' e, step E s = SYield s' (OError e) /\ (e = ErCpu \/ e = ErIncludes).
  Proof.
    unfold step. destruct (r_stack s) as [|f fs]; [now left|]. destruct (Nat.ltb _ _); [now left|]. destruct (next_instr s) as [i|]; [|now left].
    change (E_cpu E') with cpu. destruct (Nat.ltb (E_cpu E) _) eqn:L; [right; unfold fail; eauto|].
    apply Nat.ltb_ge in L. rewrite (proj2 (Nat.ltb_ge cpu _)) by lia.
    destruct i; try (left; reflexivity).
    destruct (include_limit name global once optional (w_pos (r_pos (w_instrs (r_instrs s + 1) s) + 1) (w_instrs (r_instrs s + 1) s))) as [->|[s' H]]; [now left|right; eauto].
  Qed.
  Lemma loop_limit n : forall n' s s' o, n <= n' -> loop E n s = RRet s' o -> ~ over_limit o -> loop E' n' s = RRet s' o.
  Proof.
    induction n as [|n IH]; intros n' s s' o Le H N; [discriminate|]. destruct n' as [|n']; [lia|]. cbn [loop] in H |- *.
    destruct (step_limit s) as [St|(s1 & e & St & Oe)].
    - rewrite St. destruct (step E s) as [s1|s1 o1|s1|s1|]; try exact H. apply IH; [lia|exact H|exact N].
    - rewrite St in H. injection H as _ <-. destruct N. destruct Oe as [-> | ->]; [now left|now right].
  Qed.
  Lemma run_limit inp s s' o : run E inp s = RRet s' o -> ~ over_limit o -> run E' inp s = RRet s' o.
  Proof.
    unfold run. intros H N. destruct (r_queue (feed inp s)); [|exact H]. destruct (r_stack (feed inp s)) eqn:S; [exact H|].
    eapply loop_limit; [|exact H|exact N]. unfold enough. change (E_cpu E') with cpu. lia.
  Qed.
  Lemma converse_limit inputs : forall s outs s', converse_run E inputs s = Some (outs, s') -> Forall (fun o => ~ over_limit o) outs ->
    converse_run E' inputs s = Some (outs, s').
  Proof.
    induction inputs as [|i rest IH]; intros s outs s' H N; cbn [converse_run] in H |- *; [exact H|].
    destruct (run E i s) as [s1 o| |] eqn:R; try discriminate H. destruct (converse_run E rest s1) as [[os s2]|] eqn:C; [|discriminate H].
    injection H as <- <-. cbn [fst] in N. rewrite (run_limit _ _ _ _ R (Forall_inv N)). now rewrite (IH _ _ _ C (Forall_inv_tail N)).
  Qed.
  Lemma converse_prefix inputs : forall s outs s' outs' s'', converse_run E inputs s = Some (outs, s') -> converse_run E' inputs s = Some (outs', s'') ->
    outs = outs' \/ exists same o rest rest', outs = same ++ o :: rest /\ outs' = same ++ rest' /\ over_limit o.
  Proof.
    induction inputs as [|i rest IH]; intros s outs s' outs' s'' H H'; cbn [converse_run] in H, H'; [injection H as <- _; injection H' as <- _; now left|].
    destruct (run E i s) as [s1 o| |] eqn:R; try discriminate H. destruct (converse_run E rest s1) as [[os s2]|] eqn:C; [|discriminate H]. injection H as <- <-.
    assert (D : over_limit o \/ ~ over_limit o).
    { destruct o as [[e|[]]|]; try (right; intros [X|X]; discriminate X); left; [now right|now left]. }
    destruct D as [D|D].
    - right. exists [], o, os, outs'. auto.
    - rewrite (run_limit _ _ _ _ R D) in H'. destruct (converse_run E' rest s1) as [[os' s3]|] eqn:C'; [|discriminate H']. injection H' as <- <-. cbn [fst].
      destruct (IH _ _ _ _ _ C C') as [->|(same & o1 & r & r' & -> & -> & O)]; [now left|]. right. exists (o :: same), o1, r, r'. auto.
  Qed.
End P.
