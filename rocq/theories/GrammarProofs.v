(** Proofs about the scripts the compiler accepts: the arguments of tests and commands. *)
From Coq Require Import Lia.
From Verif Require Import Base Lib Address Var Value SetVar Flags Comparator Message EditHeader
  Expr ExprTok Event Notify AddrTest Vacation Sieve Utf8 Lexer Scope StringTok Compile ParseArgs ParseBase Parse GrammarSpec.
Import ListNotations.
Local Open Scope string_scope.
Local Open Scope list_scope.

(** *** Arguments *)

Lemma arguments_nil : arguments [].
Proof. exists []. split; [constructor|reflexivity]. Qed.
Lemma arguments_app us vs : arguments us -> arguments vs -> arguments (us ++ vs).
Proof.
  intros (l & A & ->) (m & B & ->). exists (l ++ m). split; [apply Forall_app; auto|]. symmetry. apply concat_app.
Qed.
Lemma arguments_one us : argument us -> arguments us.
Proof. intro H. exists [us]. split; [constructor; [exact H|constructor]|]. cbn. symmetry. apply app_nil_r. Qed.
Lemma arguments_cons t us : argument [t] -> arguments us -> arguments (t :: us).
Proof. intros A B. apply (arguments_app [t]); [apply arguments_one; exact A|exact B]. Qed.

Section Eats.
  Variable K : cenv.
  Variable FU : nat.
  Notation rest s ts := (tokens_from (C_L K) (C_string K) (p_lex s) ts).

  (** [m] reads the tokens [us], [ts] are left. *)
  Definition eats {A} (m : P A) (Q : A -> list tok -> list tok -> Prop) : Prop :=
    forall s a s' ts, m s = Ok a s' -> rest s' ts ->
      exists us, rest s (us ++ ts) /\ length (c_stack (p_c s')) = length (c_stack (p_c s)) /\ Q a us ts.

  Lemma eats_weaken {A} (m : P A) (Q R : A -> list tok -> list tok -> Prop) :
    eats m Q -> (forall a us ts, Q a us ts -> R a us ts) -> eats m R.
  Proof. intros H W s a s' ts E F. destruct (H _ _ _ _ E F) as (us & G & S & X). exists us. auto. Qed.
  Lemma eats_ret {A} (a : A) (Q : A -> list tok -> list tok -> Prop) : (forall ts, Q a [] ts) -> eats (ret a) Q.
  Proof. intros H s x s' ts E F. injection E as <- <-. exists []. auto. Qed.
  Lemma eats_fail {A} Q : eats (@fail A) Q.
  Proof. intros s x s' ts E F. discriminate. Qed.
  Lemma eats_bind {A B} (m : P A) (k : A -> P B) (Q : A -> list tok -> list tok -> Prop) (R : B -> list tok -> list tok -> Prop) :
    eats m Q -> (forall a, eats (k a) (fun b vs ts => forall us, Q a us (vs ++ ts) -> R b (us ++ vs) ts)) ->
    eats (bind m k) R.
  Proof.
    intros H1 H2 s b s' ts E F. unfold bind in E. destruct (m s) as [a s1| | |] eqn:E1; try discriminate.
    destruct (H2 a _ _ _ _ E F) as (vs & G & S & X). destruct (H1 _ _ _ _ E1 G) as (us & G' & S' & Y).
    exists (us ++ vs). rewrite <- app_assoc. split; [exact G'|]. split; [congruence|]. auto.
  Qed.
  Lemma next_first s t l ts : rest s ts -> l_next (p_lex s) = t :: l -> exists ts', ts = t :: ts'.
  Proof.
    intros H N. inversion H as [? ? E|? ? ? ? E ?|? ? ? ? E ?]; subst; unfold lex_next in E; rewrite N in E; try discriminate.
    injection E as <- <-. eauto.
  Qed.
  Lemma eats_next : eats (next K) (fun t us _ => us = [t]).
  Proof.
    intros s a s' ts E F. unfold next, unwrap_next in E. destruct (lex_next _ _ _) eqn:N; try discriminate. injection E as <- <-.
    exists [t]. cbn. split; [|auto]. eapply from_token; [exact N|exact F].
  Qed.
  Lemma go_end b tag last s l : lex_go (C_L K) (C_string K) [] b tag last s = LEof l ->
    lex_go (C_L K) (C_string K) (l_in l) (l_buf l) (l_tag l) (l_last l) (l_state l) = LEof l /\ l_next l = [].
  Proof. cbn. destruct s; try discriminate; injection 1 as <-; auto. Qed.
  Lemma go_eof : forall n i b tag last s l, length i <= n -> lex_go (C_L K) (C_string K) i b tag last s = LEof l ->
    l_in l = [] /\ l_next l = [] /\ (l_state l = SNone \/ l_state l = SHash).
  Proof.
    assert (St : forall r b tag c t l, get_string (C_L K) (C_string K) r b tag c t <> LEof l).
    { intros. unfold get_string. destruct (Nat.ltb _ _); discriminate. }
    assert (Fl : forall b tag l k l', flush b tag l k = LEof l' -> k = LEof l').
    { intros. unfold flush in *. destruct b; [assumption|]. destruct (word_token _ _); discriminate. }
    assert (Pu : forall r b tag c p l, punct r b tag c p <> LEof l).
    { intros. unfold punct. intro X. apply Fl in X. discriminate. }
    induction n as [|n IHn]; intros i b tag last s l Hn E;
      (destruct i as [|c i]; [cbn in E; destruct s; try discriminate; injection E as <-; cbn; auto|]); [cbn in Hn; lia|].
    assert (IH : forall b tag last s, lex_go (C_L K) (C_string K) i b tag last s = LEof l ->
      l_in l = [] /\ l_next l = [] /\ (l_state l = SNone \/ l_state l = SHash)) by (intros; eapply IHn; [|eassumption]; cbn in Hn; lia).
    destruct s; cbn [lex_go] in E.
    - destruct (word_byte c); [eauto|]. destruct (is_upper_ascii c); [eauto|].
      destruct (N.eqb c 58).
      { destruct (is_nil b && head_alpha i); [eauto|]. destruct (teqb_ic b (lit "text")); [eauto|]. now apply Pu in E. }
      destruct (N.eqb c 34); [apply Fl in E; eauto|].
      destruct (N.eqb c 47).
      { destruct i as [|c1 r1]; [discriminate|]. destruct (N.eqb c1 42); [|discriminate]. apply Fl in E.
        eapply IHn; [|exact E]. cbn in Hn. lia. }
      destruct (N.eqb c 35); [apply Fl in E; eauto|]. destruct (space_byte c); [apply Fl in E; eauto|].
      destruct (punct_of c); [now apply Pu in E|discriminate].
    - destruct (N.eqb c 47 && N.eqb last 42); eauto.
    - destruct (N.eqb c 10); eauto.
    - destruct (N.eqb c 34 && _); [now apply St in E|].
      destruct (N.eqb c 10); [eauto|]. destruct (N.eqb c 123 && _); [eauto|].
      destruct (N.eqb c 92); [eauto|]. destruct (is_digit_ascii c); [eauto|].
      destruct (N.eqb c 46); eauto.
    - destruct (N.eqb c 10); eauto.
    - destruct (N.eqb c 46 && _).
      { destruct i as [|c1 r1]; [eauto|].
        assert (IH1 : forall b tag last s, lex_go (C_L K) (C_string K) r1 b tag last s = LEof l ->
          l_in l = [] /\ l_next l = [] /\ (l_state l = SNone \/ l_state l = SHash)) by (intros; eapply IHn; [|eassumption]; cbn in Hn; lia).
        destruct (N.eqb c1 13 && _); [now apply St in E|].
        destruct (N.eqb c1 10); [now apply St in E|]. destruct (N.eqb c1 46); eauto. }
      destruct (N.eqb c 10); [eauto|]. destruct (N.eqb c 123 && _); [eauto|].
      destruct (is_digit_ascii c); [eauto|]. destruct (N.eqb c 46); eauto.
  Qed.
  Lemma end_again l : l_in l = [] -> l_next l = [] -> l_state l = SNone \/ l_state l = SHash ->
    exists l', lex_next (C_L K) (C_string K) l = LEof l'.
  Proof. intros A B C. unfold lex_next. rewrite A, B. cbn. destruct C as [-> | ->]; eauto. Qed.
  Definition seen (k : peeked) (ts : list tok) : Prop :=
    match k with KEof => ts = [] | KErr => True | KTok t => exists ts', ts = t :: ts' end.
  Lemma eats_peek : eats (peek K) (fun k us ts => us = [] /\ seen k ts).
  Proof.
    intros s a s' ts E F. unfold peek, lex_peek in E. exists []. cbn [app]. destruct (l_next (p_lex s)) as [|t q] eqn:N.
    - destruct (lex_go _ _ _ _ _ _ _) eqn:G; try discriminate; injection E as <- <-.
      + pose proof (go_eof _ _ _ _ _ _ _ (Nat.le_refl _) G) as (I1 & I2 & I3). destruct (end_again l I1 I2 I3) as (l' & El).
        assert (T : ts = []) by (cbn in F; inversion F as [? ? E|? ? ? ? E ?|? ? ? ? E ?]; subst; congruence). subst ts.
        split; [eapply from_end; unfold lex_next; rewrite N; exact G|]. repeat split.
      + destruct (next_first _ t _ _ F eq_refl) as (ts' & ->). split; [|split; [reflexivity|split; [reflexivity|cbn; eauto]]].
        eapply from_token; [unfold lex_next; rewrite N; exact G|].
        inversion F as [? ? E|? ? ? ? E F'|? ? ? ? E F']; subst; unfold lex_next in E; cbn in E; try discriminate.
        injection E as <-. destruct l; exact F'.
      + split; [eapply from_error; [unfold lex_next; rewrite N; exact G|exact F]|]. repeat split.
    - injection E as <- <-. cbn in F. split; [exact F|]. split; [reflexivity|]. split; [reflexivity|].
      cbn. destruct s as [l ? ? ? ? ? ?]. cbn in *. eapply (next_first (mkp l p_c p_v p_m p_caps p_mmax p_params)); [exact F|exact N].
  Qed.
  Lemma eats_loop {A B} (I : A -> list tok -> Prop) (Q : B -> list tok -> list tok -> Prop) (step : A -> P (A + B)) :
    (forall a, eats (step a) (fun r us ts => match r with
                                             | inl a' => forall b vs ts', ts = vs ++ ts' -> Q b vs ts' -> Q b (us ++ vs) ts'
                                             | inr b => Q b us ts
                                             end)) ->
    forall n a, eats (loop n step a) Q.
  Proof.
    intros H n. induction n as [|n IH]; intros a; [intros s x s' ts E F; discriminate|].
    cbn [loop]. eapply eats_bind; [apply H|]. intros [a'|b].
    - eapply eats_weaken; [apply IH|]. cbv beta iota. intros b vs ts Hq us X. eapply X; [reflexivity|exact Hq].
    - apply eats_ret. intros ts us X. rewrite app_nil_r. exact X.
  Qed.

  (** Parsers that read nothing *)
  Definition silent {A} (m : P A) : Prop := eats m (fun _ us _ => us = []).
  Lemma silent_same {A} (m : P A) : (forall s a s', m s = Ok a s' -> p_lex s' = p_lex s /\ length (c_stack (p_c s')) = length (c_stack (p_c s))) -> silent m.
  Proof. intros H s a s' ts E F. exists []. destruct (H _ _ _ E) as [A1 A2]. rewrite A1 in F. auto. Qed.
  Lemma silent_ret {A} (a : A) : silent (ret a).
  Proof. now apply eats_ret. Qed.
  Lemma silent_fail {A} : silent (@fail A).
  Proof. apply eats_fail. Qed.
  Lemma silent_bind {A B} (m : P A) (k : A -> P B) : silent m -> (forall a, silent (k a)) -> silent (bind m k).
  Proof. intros H1 H2. eapply eats_bind; [exact H1|]. intro a. eapply eats_weaken; [apply H2|]. cbv beta. intros b vs ts -> us ->. reflexivity. Qed.
  Lemma silent_get {A} (f : pst -> A) : silent (get f).
  Proof. apply silent_same. intros s a s' E. now injection E as <- <-. Qed.
  Lemma silent_modify f : (forall s, p_lex (f s) = p_lex s /\ length (c_stack (p_c (f s))) = length (c_stack (p_c s))) -> silent (modify f).
  Proof. intro H. apply silent_same. intros s a s' E. injection E as <- <-. apply H. Qed.
  Lemma silent_lift {A} (o : option A) : silent (lift o).
  Proof. destruct o; [apply silent_ret|apply silent_fail]. Qed.
  Lemma silent_peek : silent (peek K).
  Proof. eapply eats_weaken; [apply eats_peek|]. cbv beta. tauto. Qed.
  Lemma register_match_same n s : p_lex (snd (register_match n s)) = p_lex s /\
    length (c_stack (p_c (snd (register_match n s)))) = length (c_stack (p_c s)).
  Proof. unfold register_match. destruct (mark_in _ _ _) as [[ok code] ms]. auto. Qed.
  Lemma register_matches_same : forall ns s, p_lex (snd (register_matches ns s)) = p_lex s /\
    length (c_stack (p_c (snd (register_matches ns s)))) = length (c_stack (p_c s)).
  Proof.
    induction ns as [|n ns IH]; intros s; cbn [register_matches]; [auto|].
    pose proof (register_match_same n s) as H. destruct (register_match n s) as [ok s1]. specialize (IH s1).
    destruct (register_matches ns s1) as [ok' s2]. cbn [snd] in *. destruct H, IH. split; congruence.
  Qed.
  Lemma silent_tokenize bs : silent (tokenize K bs).
  Proof.
    apply silent_same. intros s a s' E. unfold tokenize in E. destruct (tokenize_string _ _ bs) as [v|]; [|discriminate].
    pose proof (register_matches_same (match_refs v) s) as H. destruct (register_matches (match_refs v) s) as [ok s1].
    match type of E with match ?x with _ => _ end = _ => destruct x; [|discriminate] end. injection E as <- <-. exact H.
  Qed.
  Lemma silent_register n b : silent (register K n b).
  Proof.
    apply silent_same. intros s a s' E. unfold register in E. destruct (register_variable _ _ _ _ _) as [[v vs]|]; [|discriminate].
    now injection E as <- <-.
  Qed.
  Lemma silent_on_v f : silent (on_v f).
  Proof. apply silent_same. intros s a s' E. unfold on_v in E. destruct (f _); [|discriminate]. now injection E as <- <-. Qed.
  Lemma silent_inside l : silent (inside l).
  Proof. apply silent_same. intros s a s' E. unfold inside in E. destruct (forallb _ _); [|discriminate]. now injection E as <- <-. Qed.
  Lemma silent_next_fail {A} : silent (next K ;; @fail A).
  Proof. eapply eats_bind; [apply eats_next|]. intro. apply eats_fail. Qed.
  Lemma silent_push l : silent (push l).
  Proof. apply silent_modify. intro s. split; reflexivity. Qed.

  (** Parsers that read arguments; [an t]: arguments that begin with [t], which has been
      read *)
  Definition ar {A} (m : P A) : Prop := eats m (fun _ us _ => arguments us).
  Definition an {A} (t : tok) (m : P A) : Prop := eats m (fun _ us _ => arguments (t :: us)).
  Definition single (t : tok) : Prop := argument [t].
  Lemma ar_silent {A} (m : P A) : silent m -> ar m.
  Proof. intro H. eapply eats_weaken; [exact H|]. cbv beta. intros a us ts ->. apply arguments_nil. Qed.
  Lemma ar_bind {A B} (m : P A) (k : A -> P B) : ar m -> (forall a, ar (k a)) -> ar (bind m k).
  Proof. intros H1 H2. eapply eats_bind; [exact H1|]. intro a. eapply eats_weaken; [apply H2|]. cbv beta. intros. now apply arguments_app. Qed.
  Lemma ar_next {A} (k : tok -> P A) : (forall t, an t (k t)) -> ar (bind (next K) k).
  Proof. intros H. eapply eats_bind; [apply eats_next|]. intro t. eapply eats_weaken; [apply H|]. cbv beta. intros a us ts X vs ->. exact X. Qed.
  Lemma an_single {A} t (m : P A) : single t -> ar m -> an t m.
  Proof. intros S H. eapply eats_weaken; [exact H|]. cbv beta. intros. now apply arguments_cons. Qed.
  Lemma an_fail {A} t : an t (@fail A).
  Proof. apply eats_fail. Qed.
  Lemma an_bind {A B} t (m : P A) (k : A -> P B) : an t m -> (forall a, ar (k a)) -> an t (bind m k).
  Proof.
    intros H1 H2. eapply eats_bind; [exact H1|]. intro a. eapply eats_weaken; [apply H2|]. cbv beta. intros b us ts X vs Y.
    exact (arguments_app _ _ Y X).
  Qed.
  Lemma an_silent {A B} t (m : P A) (k : A -> P B) : silent m -> (forall a, an t (k a)) -> an t (bind m k).
  Proof. intros H1 H2. eapply eats_bind; [exact H1|]. intro a. eapply eats_weaken; [apply H2|]. cbv beta. intros b us ts X vs ->. exact X. Qed.
  Lemma ar_loop {A B} (step : A -> P (A + B)) : (forall a, ar (step a)) -> forall n a, ar (loop n step a).
  Proof.
    intros H. apply (eats_loop (fun _ _ => True)). intro a. eapply eats_weaken; [apply H|]. cbv beta.
    intros [x|x] us ts X; [intros b vs ts' -> Y; now apply arguments_app|exact X].
  Qed.
  Lemma single_str c : single (TStr c). Proof. apply arg_string. exact Logic.I. Qed.
  Lemma single_var c : single (TVar c). Proof. apply arg_string. exact Logic.I. Qed.
  Lemma single_num c : single (TNumber c). Proof. apply arg_number. Qed.
  Lemma single_tag c : single (TTag c). Proof. apply arg_tag. Qed.

  (** The rest of a string list; [found] tells whether it has a string already. *)
  Definition list_end (found : bool) (us : list tok) : Prop :=
    exists l, Forall (fun t => is_string t \/ t = TComma) l /\ (found = true \/ Exists is_string l) /\ us = l ++ [TBracketClose].
  Lemma list_loop {A B} (step : A -> P (A + B)) (found : A -> bool) :
    (forall a, eats (step a) (fun r us _ =>
       match r with
       | inl a' => (exists t, us = [t] /\ is_string t) \/ (us = [TComma] /\ found a' = found a)
       | inr b => us = [TBracketClose] /\ found a = true
       end)) ->
    forall n a, eats (loop n step a) (fun _ us _ => list_end (found a) us).
  Proof.
    intros H n. induction n as [|n IH]; intros a; [intros s x s' ts E F; discriminate|].
    cbn [loop]. eapply eats_bind; [apply H|]. intros [a'|b].
    - eapply eats_weaken; [apply IH|]. cbv beta iota. intros b vs ts (l & A1 & A2 & ->) us X.
      destruct X as [(t & -> & S)|[-> Ef]].
      + exists (t :: l). split; [constructor; auto|]. split; [right; now constructor|reflexivity].
      + exists (TComma :: l). split; [constructor; auto|]. split; [|reflexivity].
        rewrite <- Ef. destruct A2; [auto|right; now apply Exists_cons_tl].
    - apply eats_ret. intros ts us [-> X]. exists []. split; [constructor|]. split; [auto|reflexivity].
  Qed.
  Lemma an_list {A} (m : P A) : eats m (fun _ us _ => list_end false us) -> an TBracketOpen m.
  Proof.
    intro H. eapply eats_weaken; [exact H|]. cbv beta. intros a us ts (l & A1 & A2 & ->). apply arguments_one.
    destruct A2 as [|A2]; [discriminate|]. now apply arg_list.
  Qed.

  Lemma eats_step1 {A B} (k : tok -> P (A + B)) (R : A + B -> list tok -> Prop) :
    (forall t, eats (k t) (fun r us _ => us = [] /\ R r [t])) -> eats (bind (next K) k) (fun r us _ => R r us).
  Proof.
    intros H. eapply eats_bind; [apply eats_next|]. intro t. eapply eats_weaken; [apply H|]. cbv beta.
    intros r us ts [-> X] vs ->. exact X.
  Qed.
  Lemma eats_silent {A B} (m : P A) (k : A -> P B) (Q : B -> list tok -> list tok -> Prop) : silent m -> (forall a, eats (k a) Q) -> eats (bind m k) Q.
  Proof. intros H1 H2. eapply eats_bind; [exact H1|]. intro a. eapply eats_weaken; [apply H2|]. cbv beta. intros b us ts X vs ->. exact X. Qed.
End Eats.
