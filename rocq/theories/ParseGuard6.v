(** Runs of compiled scripts: an instruction is only reached after the [require]s of its
    extensions have been executed and allowed. *)
From Coq Require Import Lia.
From Verif Require Import Base Lib Address Var Value SetVar Flags Comparator Message EditHeader
  Expr ExprTok Event Notify AddrTest Vacation Mime Sieve Utf8 Lexer Scope StringTok Run RunSpec RunProofs RunProofs2 RunProofs3 RunProofs4 RunProofs5 RunProofs6 RunProofs7 RunProofs8
  RunProofs9 Compile CompileSpec ParseArgs ParseBase
  Parse ParseSpec CompileProofs8 CompileProofs9 ParseCaps1 ParseGuard1 ParseGuard2 ParseGuard3 ParseGuard4 ParseGuard5.
Import ListNotations.

Lemma inv_jumps x : Inv [] (s_code x) -> jumps_inside x /\ guarded x.
Proof.
  intros [A B C]. split.
  - intros i p I T. apply In_nth_error in I as [j N]. destruct (A j i p N T) as [[X _]|[k []]]. exact X.
  - intros p i N V. assert (W : vac (s_code x) p = true) by (unfold vac; now rewrite N).
    destruct (C p W) as (q & j & -> & N1 & VT & N2). exists q, j. split; [reflexivity|]. split; [exact N1|]. split; [exact VT|]. split; [exact N2|].
    intros k t Ik It. apply In_nth_error in Ik as [j2 N3]. destruct (A j2 k t N3 It) as [(_ & X & Y)|[k2 []]]. split; intros ->.
    + replace (q + 1 + 1) with (q + 2) in Y by lia. congruence.
    + congruence.
Qed.
Lemma rg_required R code p i c : RG false R [] code -> nth_error code p = Some i -> In c (exts i) -> required_before code p c.
Proof.
  intros H N I. destruct (rg_need _ _ _ _ H eq_refl _ _ _ N I) as (r & _ & [L _] & (l & Nl & Il)). exists (fst r), l. auto.
Qed.

Section Dyn.
  Variable E : renv.
  Notation ok c := (existsb (cap_eqb c) (E_caps E) = true).

  Definition good (x : sieve) : Prop := exists R, RG false R [] (s_code x).
  Definition granted (x : sieve) (p : nat) : Prop := exists R, RG false R [] (s_code x) /\
    forall r l c, In r R -> within r p -> nth_error (s_code x) (fst r) = Some (IxRequire l) -> In c l -> ok c.
  Hypothesis scripts_good : forall t x, E_scripts E t = Some x -> good x.

  Fixpoint frames_g (l : list frame) : Prop :=
    match l with
    | [] => True
    | f :: rest => (match rest with [] => True | g :: _ => granted (f_script g) (f_pos f) end) /\ frames_g rest
    end.
  Record ginv (s : rst) : Prop := {
    gi_frames : frames_g (r_stack s);
    gi_cache : forall n x, In (n, x) (r_cache s) -> good x;
    gi_pos : match r_stack s with [] => True | f :: _ => granted (f_script f) (r_pos s) end
  }.
  Lemma granted_start x : good x -> granted x 0.
  Proof. intros [R H]. exists R. split; [exact H|]. intros r l c _ [L _]. lia. Qed.
  Lemma granted_next x p i : granted x p -> nth_error (s_code x) p = Some i ->
    (forall l, i = IxRequire l -> forall c, In c l -> ok c) -> granted x (p + 1).
  Proof.
    intros (R & H & A) N Hi. exists R. split; [exact H|]. intros r l c Ir [L U] Nl Ic.
    destruct (Nat.eq_dec (fst r) p) as [Q|Q].
    - rewrite Q, N in Nl. injection Nl as ->. eapply Hi; eauto.
    - apply (A r l c Ir); auto. split; [lia|]. destruct (snd r); [lia|exact U].
  Qed.
  Lemma granted_jump x p i t : granted x p -> nth_error (s_code x) p = Some i -> In t (targets i) -> granted x t.
  Proof.
    intros (R & H & A) N It. exists R. split; [exact H|]. intros r l c Ir W. apply A; [exact Ir|].
    destruct (rg_jump _ _ _ _ H _ _ _ N It) as [[k []]|X]. auto.
  Qed.
  Lemma granted_ext x p i c : granted x p -> nth_error (s_code x) p = Some i -> In c (exts i) -> ok (cap c).
  Proof.
    intros (R & H & A) N I. destruct (rg_need _ _ _ _ H eq_refl _ _ _ N I) as (r & Ir & W & (l & Nl & Il)). eauto.
  Qed.
  Lemma require_stays l s s' : state_of (exec_instr E (IxRequire l) s) = Some s' -> r_stack s' <> [] -> forall c, In c l -> ok c.
  Proof.
    intros H Ns c Ic. pose proof (require_error E l s) as X. unfold exec_instr in *.
    destruct (find _ l) as [z|] eqn:F.
    - exfalso. apply Ns. destruct z; unfold fail in H; cbn [state_of] in H; injection H as <-; apply finish_stack.
    - cbn in X. destruct X as [_ X]. auto.
  Qed.

  Definition fine (x : entry) : Prop := forall c, In c (exts (fst x)) -> ok (cap c).
  Lemma step_ginv s s' : ginv s -> state_of (step E s) = Some s' -> ginv s' /\ Forall fine (executed E s).
  Proof.
    intros V H. pose proof V as [Vf Vc Vp]. unfold step, executed, next_instr in *.
    destruct (r_stack s) as [|f rest] eqn:St.
    { injection H as <-. split; [exact V|constructor]. }
    destruct (Nat.ltb (length _) _) eqn:Rg.
    { injection H as <-. apply Nat.ltb_lt in Rg. rewrite (proj2 (nth_error_None _ _)) by lia. split; [exact V|constructor]. }
    destruct (nth_error (s_code (f_script f)) (r_pos s)) as [i|] eqn:N.
    - change (r_instrs (w_instrs (r_instrs s + 1) s)) with (r_instrs s + 1) in *. cbv zeta in *.
      change (r_pos (w_instrs (r_instrs s + 1) s)) with (r_pos s) in *.
      destruct (Nat.ltb (E_cpu E) (r_instrs s + 1)) eqn:Cp.
      { apply Nat.ltb_lt in Cp. unfold fail in *. cbn [state_of] in H. injection H as <-.
        rewrite (proj2 (Nat.leb_gt _ _)) by lia. split; [|constructor].
        constructor; rewrite ?finish_stack, ?finish_cache; auto; exact Logic.I. }
      apply Nat.ltb_ge in Cp. rewrite (proj2 (Nat.leb_le _ _)) by lia.
      set (s2 := w_pos (r_pos s + 1) (w_instrs (r_instrs s + 1) s)) in *.
      assert (St2 : r_stack s2 = f :: rest) by exact St.
      pose proof (exec_instr_counts E i s2 s' H) as (_ & Kc & _). change (r_cache s2) with (r_cache s) in Kc.
      pose proof (exec_moves E i s2 s' H) as Mv. rewrite St2 in Mv. change (r_pos s2) with (r_pos s + 1) in Mv.
      split; [|constructor; [intros c Ic; eapply granted_ext; eauto|constructor]].
      cbn [frames_g] in Vf. destruct Vf as [Vf1 Vf2].
      destruct Mv as [[S1 Mv] | [[(n & x & Gx & Ps) (ia & ib & ic0 & id & ->)] | [(g & S1 & Mv) | S1]]].
      + constructor; rewrite ?S1, ?Kc; [cbn [frames_g]; auto|exact Vc|].
        destruct Mv as [P1 | [P1 | [P1 P2]]].
        * rewrite P1. eapply granted_next; [exact Vp|exact N|]. intros l ->. eapply require_stays; [exact H|]. rewrite S1. discriminate.
        * eapply granted_jump; eauto.
        * rewrite P1. replace (r_pos s + 1 - 1) with (r_pos s) by lia. exact Vp.
      + assert (Gg : good x).
        { destruct Gx as [Gx | [t Gx]]; [|eauto]. apply cache_get_In in Gx as [m Im]. exact (Vc m x Im). }
        rewrite Ps. constructor.
        * pose proof (push_stack x s2) as Q. rewrite St2 in Q. rewrite Q. cbn [frames_g f_pos]. split; [|auto].
          change (r_pos s2) with (r_pos s + 1). eapply granted_next; [exact Vp|exact N|discriminate].
        * cbn. exact Vc.
        * rewrite push_stack. cbn [r_pos push_frame w_pos f_script]. now apply granted_start.
      + injection S1 as -> Er. constructor; rewrite <- ?Er, ?Kc; [exact Vf2|exact Vc|]. rewrite Mv. destruct rest; [exact Logic.I|exact Vf1].
      + constructor; rewrite ?S1, ?Kc; auto; exact Logic.I.
    - split; [|constructor]. unfold pop_frame in H. rewrite St in H. cbn [frames_g] in Vf. destruct Vf as [Vf1 Vf2].
      destruct rest as [|g rest]; cbn [state_of] in H; injection H as <-; constructor; cbn; auto.
  Qed.
  Lemma loop_ginv n : forall s, ginv s -> Forall fine (g_log (loop_log E n s)) /\ forall s' o, Run.loop E n s = RRet s' o -> ginv s'.
  Proof.
    induction n as [|n IH]; intros s V; cbn [Run.loop loop_log]; [split; [constructor|discriminate]|].
    pose proof (fun s' => step_ginv s s' V) as K.
    destruct (step E s) as [s1|s1 o1|s1|s1|] eqn:St; cbn [state_of] in K.
    - destruct (K s1 eq_refl) as [K1 K2]. destruct (IH s1 K1) as [I1 I2]. split; [|exact I2]. cbn [join g_log turn]. apply Forall_app. auto.
    - destruct (K s1 eq_refl) as [K1 K2]. split; [exact K2|]. intros s' o Q. injection Q as <- <-. exact K1.
    - destruct (K s1 eq_refl) as [K1 K2]. split; [exact K2|]. intros s' o Q. destruct (finale E s1) as [s2 o2] eqn:Fi. injection Q as <- <-.
      destruct (finale_out E _ _ _ Fi) as (A1 & A2 & A3 & A4). destruct K1 as [B1 B2 B3]. constructor; rewrite ?A2, ?A3, ?A4; auto.
    - destruct (K s1 eq_refl) as [K1 K2]. split; [exact K2|]. intros s' o Q. injection Q as <- <-. exact K1.
    - split; [|discriminate]. cbn [turn g_log].
      unfold executed, next_instr, step in *. destruct (r_stack s) as [|f rest] eqn:Sk; [constructor|].
      destruct (nth_error (s_code (f_script f)) (r_pos s)) as [i|] eqn:N; [|constructor]. destruct (Nat.leb _ _); [|constructor].
      constructor; [|constructor]. intros c Ic. destruct V as [_ _ Vp]. rewrite Sk in Vp. eapply granted_ext; eauto.
  Qed.
  Lemma feed_ginv i s : (forall x, In x (input_script i) -> good x) -> ginv s -> ginv (feed i s).
  Proof.
    intros J [V1 V2 V3]. destruct i; try (constructor; assumption). unfold feed. destruct (_ && _); [|constructor; assumption].
    assert (Gx : good s0) by (apply J; now left). constructor.
    - cbn [r_stack w_test]. rewrite push_stack. cbn [frames_g f_script f_pos].
      change (r_stack (w_cache (cache_insert n s0 (r_cache s)) s)) with (r_stack s).
      change (r_pos (w_cache (cache_insert n s0 (r_cache s)) s)) with (r_pos s). split; [destruct (r_stack s); auto|exact V1].
    - cbn [r_cache w_test push_frame w_pos w_vars w_stack w_cache]. clear - V2 Gx.
      induction (r_cache s) as [|[kk y] l IHl]; cbn.
      + intros m z [Hm|[]]. now injection Hm as <- <-.
      + destruct (script_name_eqb n kk).
        * intros m z [Hm|Hm]; [now injection Hm as <- <-|]. apply (V2 m). now right.
        * intros m z [Hm|Hm]; [apply (V2 m); now left|]. apply (IHl (fun m x Hi => V2 m x (or_intror Hi)) m z Hm).
    - cbn [r_stack w_test]. rewrite push_stack. cbn [f_script]. now apply granted_start.
  Qed.
  Lemma conversation_granted inputs : forall s, ginv s ->
    (forall i x, In i inputs -> In x (input_script i) -> good x) -> Forall fine (g_log (log_of E inputs s)).
  Proof.
    induction inputs as [|i rest IH]; intros s V J; cbn [log_of]; [constructor|].
    pose proof (feed_ginv i s (fun x => J i x (or_introl eq_refl)) V) as V0.
    assert (K : Forall fine (g_log (run_log E i s)) /\ forall s' o, run E i s = RRet s' o -> ginv s').
    { unfold run_log, run. revert V0. generalize (feed i s). intros s0 V0. destruct (r_queue s0) as [|e q].
      - destruct (r_stack s0) as [|f fs] eqn:Sk.
        + split; [constructor|]. intros s' o Q. injection Q as <- <-. exact V0.
        + apply loop_ginv. exact V0.
      - split; [constructor|]. intros s' o Q. injection Q as <- <-. destruct V0. constructor; assumption. }
    destruct K as [K1 K2]. destruct (run E i s) as [s1 o| |] eqn:R; try exact K1.
    cbn [join g_log]. apply Forall_app. split; [exact K1|]. apply IH; [eauto|]. intros j x Ij. apply J. now right.
  Qed.
End Dyn.
