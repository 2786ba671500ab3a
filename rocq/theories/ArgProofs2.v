(** Proofs about what the arguments of tests say. *)
From Coq Require Import Lia.
From Verif Require Import Base Lib Address Var Value SetVar Flags Comparator Message EditHeader
  Expr ExprTok Event Notify AddrTest Vacation Sieve Utf8 Lexer Scope StringTok HeaderVar Compile ParseArgs ParseBase Parse GrammarSpec
  GrammarProofs GrammarProofs2 GrammarProofs3 ArgBase ArgSpec ArgProofs1.
Import ListNotations.
Local Open Scope string_scope.
Local Open Scope list_scope.

Lemma dispatch_some hs w h : dispatch hs w = Some h -> exists f g, In (f, g) hs /\ f w = true /\ h = g w.
Proof.
  induction hs as [|[f g] hs IH]; cbn; [discriminate|]. destruct (f w) eqn:E.
  - injection 1 as <-. exists f, g. auto.
  - intro H. destruct (IH H) as (f' & g' & I & X & Y). exists f', g'. auto.
Qed.

Section Handlers.
  Variable K : cenv.
  Variable V : vst.
  Variable FU : nat.
  Notation L := (C_L K).
  Notation eats := (eats K V).
  Variable ts : tags.
  Variable R : args -> list piece -> Prop.

  Definition handles (h : handler) : Prop := forall w a, fst h w = true ->
    eats (snd h w a) (fun a' us _ => legal ts (Some w, us) /\ forall l, R a l -> R a' (l ++ [(Some w, us)])).
  Definition ends (F : args -> list piece -> Prop) (dflt : tok -> args -> P (args + args)) : Prop :=
    forall t a, eats (dflt t a) (fun r us _ => a_strings (t :: us) /\ forall l, R a l ->
        match r with inl a' => R a' (l ++ [(None, t :: us)]) | inr a' => F a' (l ++ [(None, t :: us)]) end).

  Lemma eats_args hs dflt F : R args0 [] -> Forall handles hs -> ends F dflt ->
    eats (read_args K FU hs dflt) (fun a us _ => exists l, splits ts us l /\ F a l).
  Proof.
    intros H0 Hh Hd. unfold read_args.
    assert (G : forall n a, eats (loop n (step_args K hs dflt) a)
                 (fun a' us _ => forall l, R a l -> exists l', splits ts us l' /\ F a' (l ++ l'))).
    { induction n as [|n IH]; intros a; [apply eats_never; discriminate|]. cbn [loop].
      eapply (eats_bind K V _ _ (fun r us _ => exists p, us = written p /\ legal ts p /\ forall l, R a l ->
                match r with inl a' => R a' (l ++ [p]) | inr a' => F a' (l ++ [p]) end)).
      - unfold step_args. apply eats_read. intro t.
        assert (D : eats (dflt t a) (fun r us _ => exists p, t :: us = written p /\ legal ts p /\ forall l, R a l ->
                match r with inl a' => R a' (l ++ [p]) | inr a' => F a' (l ++ [p]) end)).
        { eapply eats_weaken; [apply (Hd t a)|]. cbv beta. intros r us ts' [A B]. exists (None, t :: us). auto. }
        destruct t; try exact D. destruct (dispatch hs w) as [h|] eqn:E; [|exact D].
        apply dispatch_some in E as (f & g & I & X & ->). rewrite Forall_forall in Hh. specialize (Hh _ I w a X). cbn [fst snd] in Hh.
        eapply eats_then; [exact Hh|]. intro a'. apply eats_ret. intros ts'. split; [reflexivity|]. intros us [A B].
        exists (Some w, us). auto.
      - intros [a'|a'].
        + eapply eats_weaken; [apply IH|]. cbv beta. intros b vs ts' X us (p & -> & A & B) l HR. destruct (X _ (B _ HR)) as (l' & [-> S] & Y).
          exists (p :: l'). rewrite <- app_assoc in Y. split; [|exact Y]. split; [reflexivity|]. now constructor.
        + apply eats_ret. intros ts' us (p & -> & A & B) l HR. exists [p]. split; [|auto]. split; [cbn; now rewrite !app_nil_r|auto]. }
    eapply eats_weaken; [apply (G FU args0)|]. cbv beta. intros a us ts' X. destruct (X [] H0) as (l & S & Y). eauto.
  Qed.

  (** Handlers *)
  Lemma handles_gen {A} (m : P A) (Q : list tok -> A -> Prop) (f : A -> args -> args) n c x ss :
    eats m (fun v us _ => Q us v) -> (forall us v, Q us v -> fits_all ss us) -> shape_of x ts = Some ss ->
    (forall a l us v, R a l -> Q us v -> R (f v a) (l ++ [(Some (lit x), us)])) ->
    handles (word x, fun _ a => va K n c ;; v <- m ;; ret (f v a)).
  Proof.
    intros Hm Hf Hs HR w a W. cbn [fst snd] in *. apply word_named in W. subst w.
    apply eats_silent; [apply silent_va|]. intros _. eapply eats_then; [exact Hm|]. intro v. apply eats_ret. intros ts'.
    split; [reflexivity|]. intros us HQ. split; [eapply legal_shape; eauto|]. auto.
  Qed.
  Lemma handles_flag n c x f : shape_of x ts = Some [] -> (forall a l, R a l -> R (f a) (l ++ [(Some (lit x), [])])) -> handles (h_flag K n c x f).
  Proof.
    intros Hs HR w a W. cbn [fst snd h_flag] in *. apply word_named in W. subst w.
    apply eats_silent; [apply silent_va|]. intros _. apply eats_ret. intros ts'. split; [eapply legal_shape; [exact Hs|reflexivity]|]. auto.
  Qed.
  Lemma handles_string n c x f : shape_of x ts = Some [SStrings] ->
    (forall a l us v, R a l -> string1 K V us v -> R (f (Some v) a) (l ++ [(Some (lit x), us)])) -> handles (h_string K FU n c x f).
  Proof.
    intros Hs HR. apply (handles_gen _ (string1 K V) (fun v => f (Some v)) n c x [SStrings]); auto; [apply eats_string|].
    intros us v H. apply fits_one. eapply strings_shape; exact H.
  Qed.
  Lemma handles_strings n c x f : shape_of x ts = Some [SStrings] ->
    (forall a l us v, R a l -> strings_are K V us v -> R (f v a) (l ++ [(Some (lit x), us)])) -> handles (h_strings K FU n c x f).
  Proof.
    intros Hs HR. apply (handles_gen _ (strings_are K V) f n c x [SStrings]); auto; [apply eats_strings|].
    intros us v H. apply fits_one. eapply strings_shape; exact H.
  Qed.
  Lemma handles_number {f : N -> args -> args} n c x max : shape_of x ts = Some [SNumber] ->
    (forall a l i, R a l -> R (f i a) (l ++ [(Some (lit x), [TNumber i])])) ->
    handles (word x, fun _ a => va K n c ;; v <- number K max ;; ret (f v a)).
  Proof.
    intros Hs HR. apply (handles_gen _ (fun us i => us = [TNumber i]) f n c x [SNumber]); auto; [apply eats_number| |].
    - intros us i ->. apply fits_one. exists i. reflexivity.
    - intros a l us i H ->. auto.
  Qed.
  Lemma handles_match n lists : (forall p, In p (match_tags lists) -> In p ts) ->
    (forall w a l us m, In w (map lit (ParseBase.match_words lists)) -> R a l -> match_is K w us m -> R (s_m m a) (l ++ [(Some w, us)])) ->
    handles (h_match K n lists).
  Proof.
    intros Hs HR w a W. cbn [fst snd h_match] in *. pose proof (proj1 (oneof_named _ _) W) as I. unfold named in I.
    assert (W' : oneof match_words w = true).
    { apply existsb_exists in W as (x & Ix & E). apply existsb_exists. exists x. split; [|exact E]. destruct lists; cbn in *; tauto. }
    apply eats_silent; [apply silent_va|]. intros _. eapply eats_then; [apply eats_match_type, W'|]. intro m. apply eats_ret. intros ts'.
    split; [reflexivity|]. intros us HQ. split; [|auto]. eapply match_is_shape; [exact HQ| |].
    - intros x ss Ix. apply Hs. destruct lists; cbn in *; tauto.
    - intros ->. apply Hs. destruct lists; [cbn; tauto|]. exfalso.
      cbn [ParseBase.match_words map app In] in I. repeat (destruct I as [I|I]; [discriminate I|]). exact I.
  Qed.
  Lemma handles_comparator n : shape_of "comparator" ts = Some [SStrings] ->
    (forall a l us c, R a l -> comparator_is K us c -> R (s_c c a) (l ++ [(Some (lit "comparator"), us)])) -> handles (h_comparator K FU n).
  Proof.
    intros Hs HR. apply (handles_gen _ (comparator_is K) s_c n None "comparator" [SStrings]); auto; [apply eats_comparator|].
    intros us v H. apply fits_one. eapply comparator_shape; exact H.
  Qed.
  Lemma handles_zone (f : Z -> args -> args) n c : shape_of "zone" ts = Some [SStrings] ->
    (forall a l us z, R a l -> zone_is us z -> R (f z a) (l ++ [(Some (lit "zone"), us)])) ->
    handles (word "zone", fun _ a => va K n c ;; z <- timezone K ;; ret (f z a)).
  Proof.
    intros Hs HR. apply (handles_gen _ zone_is f n c "zone" [SStrings]); auto; [apply eats_timezone|].
    intros us v H. apply fits_one. eapply zone_shape; exact H.
  Qed.
  Lemma handles_part words : (forall w, In w words -> In (w, []) ts) -> (forall w, In w words -> In w (map fst parts)) ->
    (forall w a l p, In w (map lit words) -> R a l -> assoc w parts = Some p -> R (s_part p a) (l ++ [(Some w, [])])) -> handles (h_part K words).
  Proof.
    intros Hs Hp HR w a W. cbn [fst snd h_part] in *. pose proof (proj1 (oneof_named _ _) W) as I. unfold named in I.
    apply eats_silent; [apply silent_va|]. intros _. apply eats_ret. intros _. pose proof I as I'.
    apply in_map_iff in I as (x & <- & Ix). split.
    - exists x, []. split; [auto|]. split; reflexivity.
    - intros l H. apply HR; auto. apply Hp in Ix. cbn [map parts fst In] in Ix.
      repeat (destruct Ix as [<-|Ix]; [reflexivity|]). contradiction.
  Qed.
End Handlers.
