(** Proofs about which script an include runs. *)
From Coq Require Import Lia.
From Verif Require Import Base Lib Address Var Value SetVar Flags Comparator Message EditHeader Expr Event
  Notify Vacation Spam AddrTest Mime Sieve Run RunSpec RunProofs RunProofs2 RunProofs3 RunProofs6 Compile CompileSpec CompileProofs6 IncludeSpec.
Import ListNotations.

Lemma insert_same n x l : cache_get n (cache_insert n x l) = Some x.
Proof.
  induction l as [|[k y] l IH]; cbn [cache_insert cache_get].
  - now rewrite (proj2 (name_eqb_spec n n) eq_refl).
  - destruct (script_name_eqb n k) eqn:Q; cbn [cache_get]; [now rewrite (proj2 (name_eqb_spec n n) eq_refl)|]. now rewrite Q.
Qed.
Lemma insert_other n m x l : m <> n -> cache_get m (cache_insert n x l) = cache_get m l.
Proof.
  intro N. assert (Q : script_name_eqb m n = false) by (destruct (script_name_eqb m n) eqn:Q; [apply name_eqb_spec in Q; contradiction|reflexivity]).
  induction l as [|[k y] l IH]; cbn [cache_insert cache_get]; [now rewrite Q|].
  destruct (script_name_eqb n k) eqn:Qk; cbn [cache_get].
  - apply name_eqb_spec in Qk. subst k. now rewrite Q.
  - destruct (script_name_eqb m k); [reflexivity|exact IH].
Qed.
Lemma name_dec (a b : script_name) : {a = b} + {a <> b}.
Proof. destruct (script_name_eqb a b) eqn:Q; [left; now apply name_eqb_spec|right; intros ->; rewrite (proj2 (name_eqb_spec b b) eq_refl) in Q; discriminate]. Qed.
Lemma taken_dec x : {taken x} + {~ taken x}.
Proof. unfold taken. destruct (le_dec (s_match_vars x) 63), (le_dec (s_vars x) 256); [left; auto|right; tauto..]. Qed.

(** The cache holds what the host has handed in. *)
Definition knows_given (inputs : list input) (C : list (script_name * sieve)) : Prop :=
  forall n, (exists x, cache_get n C = Some x /\ given inputs n x) \/ (cache_get n C = None /\ never_given inputs n).
Lemma given_more inputs n x inp : (forall y, inp = InScript n y -> ~ taken y) -> given inputs n x -> given (inputs ++ [inp]) n x.
Proof.
  intros N [T (b & a & -> & A)]. split; [exact T|]. exists b, (a ++ [inp]). split; [now rewrite <- app_assoc|].
  intros y I. apply in_app_or in I. destruct I as [I|[I|[]]]; [now apply A|now apply N].
Qed.
Lemma never_more inputs n inp : (forall y, inp = InScript n y -> ~ taken y) -> never_given inputs n -> never_given (inputs ++ [inp]) n.
Proof. intros N A y I. apply in_app_or in I. destruct I as [I|[I|[]]]; [now apply A|now apply N]. Qed.
Lemma feed_given inputs inp s : knows_given inputs (r_cache s) -> knows_given (inputs ++ [inp]) (r_cache (feed inp s)).
Proof.
  intros K n. assert (Same : (forall y, inp = InScript n y -> ~ taken y) -> cache_get n (r_cache (feed inp s)) = cache_get n (r_cache s) ->
    (exists x, cache_get n (r_cache (feed inp s)) = Some x /\ given (inputs ++ [inp]) n x) \/
    (cache_get n (r_cache (feed inp s)) = None /\ never_given (inputs ++ [inp]) n)).
  { intros N ->. destruct (K n) as [(x & G & X)|[G X]]; [left; exists x; split; [exact G|now apply given_more]|right; split; [exact G|now apply never_more]]. }
  destruct inp as [| |v|m x]; try (apply Same; [discriminate|reflexivity]).
  cbn [feed] in *. destruct (taken_dec x) as [T|T].
  - destruct T as [T1 T2]. rewrite (proj2 (Nat.leb_le _ _) T1), (proj2 (Nat.leb_le _ _) T2) in *. cbn [andb] in *. change (r_cache (w_test _ _)) with (cache_insert m x (r_cache s)) in *.
    destruct (name_dec n m) as [->|N].
    + left. exists x. split; [apply insert_same|]. split; [split; assumption|]. exists inputs, []. split; [reflexivity|]. intros y [].
    + apply Same; [intros y Q; congruence|]. now apply insert_other.
  - replace (Nat.leb (s_match_vars x) 63 && Nat.leb (s_vars x) 256) with false in *.
    + apply Same; [|reflexivity]. intros y Q. injection Q as _ <-. exact T.
    + symmetry. apply Bool.andb_false_iff. unfold taken in T. rewrite !Nat.leb_gt. lia.
Qed.

Section P.
  Variable E : renv.
  Definition caches C (s : rst) : Prop := r_cache s = C.
  Lemma step_caches C s s' : calm s -> fin (r_final s) -> r_stack s <> [] -> caches C s -> state_of (step E s) = Some s' -> caches C s'.
  Proof.
    intros Ca F S K H. unfold caches in *. rewrite <- K.
    destruct (step_cases E s) as [(i & St & _) | [St | [St | [St | St]]]]; rewrite St in H.
    - now destruct (exec_instr_counts E _ _ _ H) as (_ & -> & _).
    - now destruct (pop_counts s s' H) as (_ & -> & _).
    - now injection H as <-.
    - now injection H as <-.
    - injection H as <-. now rewrite finish_cache.
  Qed.
  Lemma run_caches inp s : fin (r_final s) ->
    Forall (fun x => caches (r_cache (feed inp s)) (snd x)) (g_log (run_log E inp s)) /\
    (forall s' o, run E inp s = RRet s' o -> caches (r_cache (feed inp s)) s' /\ fin (r_final s')).
  Proof.
    intros F. destruct (feed_queue inp s) as [_ F2]. rewrite <- F2 in F.
    unfold run, run_log. revert F. generalize (feed inp s). clear. intros s F.
    assert (K : caches (r_cache s) s) by reflexivity. revert K. generalize (r_cache s). intros C K.
    destruct (r_queue s) as [|e q] eqn:Q.
    - destruct (r_stack s) as [|f fs] eqn:St.
      + split; [constructor|]. intros s' o H. injection H as <- <-. now split.
      + assert (Ca : calm s) by (unfold calm; now rewrite Q).
        assert (S : r_stack s <> []) by (rewrite St; discriminate). split.
        * apply (loop_log_inv E (caches C)); auto. exact (step_caches C).
        * intros s' o H. split; [|exact (proj1 (loop_quiet E _ _ _ _ Ca F S H))].
          apply (loop_inv E (caches C)) with (7 := H); auto; [exact (step_caches C)|].
          intros x x' o' Kx Fi. unfold caches. now destruct (finale_keeps E _ _ _ Fi) as (_ & _ & ->).
    - split; [destruct (r_stack s); constructor|]. intros s' o H. injection H as <- <-. now split.
  Qed.
  Lemma converse_given inputs : forall before s outs s', fin (r_final s) -> knows_given before (r_cache s) ->
    converse_run E inputs s = Some (outs, s') -> fin (r_final s') /\ knows_given (before ++ inputs) (r_cache s').
  Proof.
    induction inputs as [|i rest IH]; intros before s outs s' F K H; cbn [converse_run] in H.
    - injection H as <- <-. rewrite app_nil_r. auto.
    - destruct (run E i s) as [s1 o| |] eqn:R; try discriminate H. destruct (converse_run E rest s1) as [[os s2]|] eqn:Cv; [|discriminate H].
      injection H as <- <-. destruct (run_caches i s F) as [_ B]. destruct (B s1 o R) as [B1 B2].
      replace (before ++ i :: rest) with ((before ++ [i]) ++ rest) by (now rewrite <- app_assoc).
      eapply IH; eauto. rewrite B1. now apply feed_given.
  Qed.
  Lemma start_given m size c : knows_given [] (r_cache (initial m size c)).
  Proof. intro n. right. split; [reflexivity|]. intros y []. Qed.

  Lemma include_is inputs s name global once optional : knows_given inputs (r_cache s) -> v_is_empty (ev E s name) = false ->
    includes E inputs (tx E s name) global once optional s (exec_instr E (IxInclude name global once optional) s).
  Proof.
    intros K Ne. unfold includes. set (n := if global then SGlobal (tx E s name) else SPersonal (tx E s name)).
    cbn [exec_instr]. unfold exec_include. rewrite Ne. change (v_text (E_L E) (ev E s name)) with (tx E s name). fold n.
    assert (Nt : name_text n = tx E s name) by (unfold n; now destruct global).
    destruct (K n) as [(x & G & X)|[G X]]; rewrite G; cbn [opt_or].
    - destruct once; cbn [negb orb]; [left; eauto|]. right. destruct (Nat.ltb _ _) eqn:L.
      + right. apply Nat.ltb_lt in L. split; [auto|]. split; [exact L|]. left. exists x, (push_frame x s).
        split; [left; exact X|]. split; [reflexivity|]. repeat (split; [reflexivity|]). eexists. repeat split.
      + left. apply Nat.ltb_ge in L. unfold fail. eauto.
    - rewrite Bool.orb_true_r. right. destruct (Nat.ltb _ _) eqn:L.
      + right. apply Nat.ltb_lt in L. split; [auto|]. split; [exact L|]. destruct (E_scripts E (tx E s name)) as [x|] eqn:R; [left|right; auto].
        exists x, (push_frame x s). split; [right; rewrite Nt; auto|]. split; [reflexivity|]. repeat (split; [reflexivity|]). eexists. repeat split.
      + left. apply Nat.ltb_ge in L. unfold fail. eauto.
  Qed.
  Lemma include_in_run m size c before inp outs s name global once optional st :
    converse_run E before (initial m size c) = Some (outs, s) ->
    In (IxInclude name global once optional, st) (g_log (run_log E inp s)) -> v_is_empty (ev E st name) = false ->
    includes E (before ++ [inp]) (tx E st name) global once optional st (exec_instr E (IxInclude name global once optional) st).
  Proof.
    intros C I Ne. destruct (converse_given before [] (initial m size c) outs s Logic.I (start_given m size c) C) as [F K]. cbn [app] in K.
    destruct (run_caches inp s F) as [A _]. rewrite Forall_forall in A. specialize (A _ I). cbn [snd] in A.
    apply include_is; [|exact Ne]. unfold caches in A. rewrite A. now apply feed_given.
  Qed.

  (** *** What the host is asked for *)
  Definition asks_known (C : list (script_name * sieve)) (n : script_name) : Prop := cache_get n C = None /\ E_scripts E (name_text n) = None.
  Lemma exec_asks i s s' n opt : calm s -> exec_instr E i s = SYield s' (OEvent (EInclude n opt)) -> asks_known (r_cache s) n.
  Proof.
    intros C H. destruct (asks_include E i s s' n opt C H) as [Ii _]. destruct i; try discriminate Ii. cbn [exec_instr] in H. unfold exec_include, fail in H.
    destruct (v_is_empty _); [discriminate|]. destruct (negb once || _); [|discriminate]. destruct (Nat.ltb _ _); [|discriminate].
    destruct (cache_get _ (r_cache s)) as [y|] eqn:G; cbn [opt_or] in H; [discriminate|].
    destruct (E_scripts E _) eqn:R; [discriminate|]. injection H as _ <- _. split; [exact G|]. destruct global; exact R.
  Qed.
  Lemma step_asks s s' n opt : calm s -> step E s = SYield s' (OEvent (EInclude n opt)) -> asks_known (r_cache s) n.
  Proof.
    intros C H. destruct (step_cases E s) as [(i & St & _) | [St | [St | [St | St]]]]; rewrite St in H; try discriminate.
    - apply exec_asks in H; [exact H|exact C].
    - unfold pop_frame in H. destruct (r_stack s) as [|? []]; discriminate.
  Qed.
  Lemma loop_asks k : forall s s' n opt, calm s -> fin (r_final s) -> r_stack s <> [] -> loop E k s = RRet s' (Some (OEvent (EInclude n opt))) ->
    asks_known (r_cache s) n.
  Proof.
    induction k as [|k IH]; intros s s' n opt C F S; [discriminate|]. cbn [loop].
    pose proof (step_trace E s C F S) as T. pose proof (fun s' => step_caches (r_cache s) s s' C F S eq_refl) as K. unfold step_traced in T.
    destruct (step E s) as [s1|s1 o1|s1|s1|] eqn:St; intros H; try discriminate; cbn [state_of] in K.
    - destruct T as (_ & T2 & T3 & T4 & _). rewrite <- (K s1 eq_refl). eapply IH; eauto. rewrite T3. now apply after_fin.
    - injection H as <- ->. eapply step_asks; eauto.
    - exfalso. destruct (finale E s1) as [s2 o2] eqn:Fi. injection H as <- ->. destruct T as (_ & T2 & T3 & T4 & _).
      assert (F1 : fin (r_final s1)) by (rewrite T3; now apply after_fin).
      destruct (finale_trace E s1 s2 _ T2 F1 T4 Fi) as (_ & _ & _ & A4).
      unfold seen in A4. rewrite forallb_app in A4. apply andb_prop in A4 as [A4 A5]. discriminate A4.
  Qed.
  Lemma run_asks inp s : fin (r_final s) -> forallb quiet (r_queue s) = true ->
    (forall s' o, run E inp s = RRet s' o -> forallb quiet (r_queue s') = true) /\
    (forall s' n opt, run E inp s = RRet s' (Some (OEvent (EInclude n opt))) -> asks_known (r_cache (feed inp s)) n).
  Proof.
    intros F Qu. destruct (feed_queue inp s) as [F1 F2]. rewrite <- F2 in F. rewrite <- F1 in Qu.
    unfold run. revert F Qu. generalize (feed inp s). clear. intros s F Qu.
    destruct (r_queue s) as [|e q] eqn:Q.
    - assert (Ca : calm s) by (unfold calm; now rewrite Q). destruct (r_stack s) as [|f fs] eqn:St.
      + split; [intros s' o H; injection H as <- <-; now rewrite Q|intros s' n opt H; discriminate H].
      + assert (S : r_stack s <> []) by (rewrite St; discriminate). split.
        * intros s' o H. exact (proj1 (proj2 (loop_quiet E _ _ _ _ Ca F S H))).
        * intros s' n opt H. eapply loop_asks; eauto.
    - cbn [forallb] in Qu. apply andb_prop in Qu. destruct Qu as [Q1 Q2]. split.
      + intros s' o H. injection H as <- <-. exact Q2.
      + intros s' n opt H. injection H as _ ->. discriminate Q1.
  Qed.
  Lemma converse_quiet inputs : forall s outs s', fin (r_final s) -> forallb quiet (r_queue s) = true ->
    converse_run E inputs s = Some (outs, s') -> forallb quiet (r_queue s') = true.
  Proof.
    induction inputs as [|i rest IH]; intros s outs s' F Q H; cbn [converse_run] in H.
    - injection H as <- <-. exact Q.
    - destruct (run E i s) as [s1 o| |] eqn:R; try discriminate H. destruct (converse_run E rest s1) as [[os s2]|] eqn:Cv; [|discriminate H].
      injection H as <- <-. destruct (run_caches i s F) as [_ B]. destruct (B s1 o R) as [_ B2].
      eapply IH; [exact B2|exact (proj1 (run_asks i s F Q) s1 o R)|exact Cv].
  Qed.
  Lemma asked_for m size c before inp outs s s' n opt :
    converse_run E before (initial m size c) = Some (outs, s) -> run E inp s = RRet s' (Some (OEvent (EInclude n opt))) ->
    never_given (before ++ [inp]) n /\ E_scripts E (name_text n) = None.
  Proof.
    intros C R. destruct (converse_given before [] (initial m size c) outs s Logic.I (start_given m size c) C) as [F K]. cbn [app] in K.
    assert (Q : forallb quiet (r_queue s) = true) by (refine (converse_quiet before (initial m size c) outs s _ _ C); [exact Logic.I|reflexivity]).
    destruct (proj2 (run_asks inp s F Q) _ _ _ R) as [A B]. split; [|exact B].
    destruct (feed_given before inp s K n) as [(x & G & _)|[_ X]]; [congruence|exact X].
  Qed.
End P.
