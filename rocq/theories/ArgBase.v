(** Proofs about what the arguments of tests and actions say: parsers that read tokens
    where the declared variables are [V]. *)
From Coq Require Import Lia.
From Verif Require Import Base Lib Address Var Value SetVar Flags Comparator Message EditHeader
  Expr ExprTok Event Notify AddrTest Vacation Sieve Utf8 Lexer Scope StringTok HeaderVar Compile ParseArgs ParseBase Parse GrammarSpec
  GrammarProofs GrammarProofs2 GrammarProofs3.
Import ListNotations.
Local Open Scope string_scope.
Local Open Scope list_scope.

Section Declared.
  Variable K : cenv.
  Notation rest s ts := (tokens_from (C_L K) (C_string K) (p_lex s) ts).

  (** [m] reads the tokens [us], [ts] are left; the variables declared are [V] before, and
      [W] after. *)
  Definition turns (V : vst) {A} (m : P A) (Q : A -> vst -> list tok -> list tok -> Prop) : Prop :=
    forall s a s' ts, m s = Ok a s' -> p_v s = V -> rest s' ts ->
      exists us, rest s (us ++ ts) /\ length (c_stack (p_c s')) = length (c_stack (p_c s)) /\ Q a (p_v s') us ts.
  Definition still (V : vst) {A} (m : P A) : Prop := forall s a s', m s = Ok a s' -> p_v s = V -> p_v s' = V.
  (** They are the same before and after. *)
  Definition eats (V : vst) {A} (m : P A) (Q : A -> list tok -> list tok -> Prop) : Prop :=
    still V m /\ turns V m (fun a _ us ts => Q a us ts).
  Definition silent (V : vst) {A} (m : P A) : Prop := eats V m (fun _ us _ => us = []).

  Lemma turns_weaken V {A} (m : P A) (Q R : A -> vst -> list tok -> list tok -> Prop) :
    turns V m Q -> (forall a W us ts, Q a W us ts -> R a W us ts) -> turns V m R.
  Proof. intros H X s a s' ts E EV F. destruct (H _ _ _ _ E EV F) as (us & G & S & Y). exists us. auto. Qed.
  Lemma turns_bind V {A B} (m : P A) (k : A -> P B) (Q : A -> vst -> list tok -> list tok -> Prop) (R : B -> vst -> list tok -> list tok -> Prop) :
    turns V m Q -> (forall a V1, turns V1 (k a) (fun b W vs ts => forall us, Q a V1 us (vs ++ ts) -> R b W (us ++ vs) ts)) ->
    turns V (bind m k) R.
  Proof.
    intros H1 H2 s b s' ts E EV F. unfold bind in E. destruct (m s) as [a s1| | |] eqn:E1; try discriminate.
    destruct (H2 a _ _ _ _ _ E eq_refl F) as (vs & G & S & X). destruct (H1 _ _ _ _ E1 EV G) as (us & G' & S' & Y).
    exists (us ++ vs). rewrite <- app_assoc. split; [exact G'|]. split; [congruence|]. auto.
  Qed.
  Lemma turns_eats V {A} (m : P A) (Q : A -> list tok -> list tok -> Prop) : eats V m Q -> turns V m (fun a W us ts => W = V /\ Q a us ts).
  Proof. intros [H0 H] s a s' ts E EV F. destruct (H _ _ _ _ E EV F) as (us & G & S & X). exists us. repeat split; auto. eapply H0; eauto. Qed.
  Lemma turns_after V {A B} (m : P A) (k : A -> P B) (Q : A -> list tok -> list tok -> Prop) (R : B -> vst -> list tok -> list tok -> Prop) :
    eats V m Q -> (forall a, turns V (k a) (fun b W vs ts => forall us, Q a us (vs ++ ts) -> R b W (us ++ vs) ts)) ->
    turns V (bind m k) R.
  Proof.
    intros [H0 H1] H2 s b s' ts E EV F. unfold bind in E. destruct (m s) as [a s1| | |] eqn:E1; try discriminate.
    destruct (H2 a _ _ _ _ E (H0 _ _ _ E1 EV) F) as (vs & G & S & X). destruct (H1 _ _ _ _ E1 EV G) as (us & G' & S' & Y).
    exists (us ++ vs). rewrite <- app_assoc. split; [exact G'|]. split; [congruence|]. auto.
  Qed.
  Lemma turns_never V {A} (m : P A) Q : (forall s a s', m s <> Ok a s') -> turns V m Q.
  Proof. intros H s a s' ts E. now apply H in E. Qed.

  Section Same.
    Variable V : vst.
    Notation eats := (eats V).
    Notation silent := (silent V).
    Lemma eats_of {A} (m : P A) (Q : A -> list tok -> list tok -> Prop) : GrammarProofs.eats K m Q -> still V m -> eats m Q.
    Proof. intros H X. split; [exact X|]. intros s a s' ts E EV F. destruct (H _ _ _ _ E F) as (us & G & S & Y). exists us. auto. Qed.
    Lemma silent_of {A} (m : P A) : GrammarProofs.silent K m -> still V m -> silent m.
    Proof. apply eats_of. Qed.
    Lemma eats_never {A} (m : P A) Q : (forall s a s', m s <> Ok a s') -> eats m Q.
    Proof. intro H. split; [intros s a s' E; now apply H in E|]. now apply turns_never. Qed.
    Lemma eats_weaken {A} (m : P A) (Q R : A -> list tok -> list tok -> Prop) :
      eats m Q -> (forall a us ts, Q a us ts -> R a us ts) -> eats m R.
    Proof. intros [H0 H] W. split; [exact H0|]. eapply turns_weaken; [exact H|]. intros. now apply W. Qed.
    Lemma still_ret {A} (a : A) : still V (ret a).
    Proof. intros s x s' E. now injection E as <- <-. Qed.
    Lemma still_fail {A} : still V (@fail A).
    Proof. intros s x s' E. discriminate. Qed.
    Lemma still_bind {A B} (m : P A) (k : A -> P B) : still V m -> (forall a, still V (k a)) -> still V (bind m k).
    Proof.
      intros H1 H2 s b s' E EV. unfold bind in E. destruct (m s) as [a s1| | |] eqn:E1; try discriminate. eapply H2; eauto.
    Qed.
    Lemma eats_ret {A} (a : A) (Q : A -> list tok -> list tok -> Prop) : (forall ts, Q a [] ts) -> eats (ret a) Q.
    Proof. intros H. apply eats_of; [now apply GrammarProofs.eats_ret|apply still_ret]. Qed.
    Lemma eats_fail {A} Q : eats (@fail A) Q.
    Proof. apply eats_never. discriminate. Qed.
    Lemma eats_bind {A B} (m : P A) (k : A -> P B) (Q : A -> list tok -> list tok -> Prop) (R : B -> list tok -> list tok -> Prop) :
      eats m Q -> (forall a, eats (k a) (fun b vs ts => forall us, Q a us (vs ++ ts) -> R b (us ++ vs) ts)) ->
      eats (bind m k) R.
    Proof.
      intros H1 H2. split; [apply still_bind; [apply H1|intro; apply H2]|]. eapply turns_after; [exact H1|]. intro a. apply H2.
    Qed.
    Lemma still_next : still V (next K).
    Proof. intros s a s' E. unfold next, unwrap_next in E. destruct (lex_next _ _ _); try discriminate. now injection E as <- <-. Qed.
    Lemma eats_next : eats (next K) (fun t us _ => us = [t]).
    Proof. apply eats_of; [apply GrammarProofs.eats_next|apply still_next]. Qed.
    Lemma still_peek : still V (peek K).
    Proof. intros s a s' E. unfold peek in E. destruct (lex_peek _ _ _); try discriminate; now injection E as <- <-. Qed.
    Lemma eats_peek : eats (peek K) (fun k us ts => us = [] /\ seen k ts).
    Proof. apply eats_of; [apply GrammarProofs.eats_peek|apply still_peek]. Qed.
    Lemma eats_silent {A B} (m : P A) (k : A -> P B) (Q : B -> list tok -> list tok -> Prop) : silent m -> (forall a, eats (k a) Q) -> eats (bind m k) Q.
    Proof. intros H1 H2. eapply eats_bind; [exact H1|]. intro a. eapply eats_weaken; [apply H2|]. cbv beta. intros b us ts X vs ->. exact X. Qed.
    Lemma eats_read {A} (k : tok -> P A) (Q : A -> list tok -> list tok -> Prop) :
      (forall t, eats (k t) (fun a us ts => Q a (t :: us) ts)) -> eats (bind (next K) k) Q.
    Proof.
      intro H. eapply eats_bind; [apply eats_next|]. intro t. eapply eats_weaken; [apply H|]. cbv beta. intros a us ts X vs ->. exact X.
    Qed.
    Lemma eats_peek_next {A} (k : peeked -> P A) (Q : A -> list tok -> list tok -> Prop) :
      (forall p, eats (k p) (fun a us ts => seen p (us ++ ts) -> Q a us ts)) -> eats (bind (peek K) k) Q.
    Proof.
      intro H. eapply eats_bind; [apply eats_peek|]. intro p. eapply eats_weaken; [apply H|]. cbv beta. intros a us ts X vs [-> S].
      exact (X S).
    Qed.
    Lemma eats_next_seen {A} (k : tok -> P A) t (Q : A -> list tok -> list tok -> Prop) :
      (forall u, eats (k u) (fun a us ts => u = t -> Q a (u :: us) ts)) ->
      eats (bind (next K) k) (fun a us ts => seen (KTok t) (us ++ ts) -> Q a us ts).
    Proof.
      intro H. eapply eats_bind; [apply eats_next|]. intro u. eapply eats_weaken; [apply H|]. cbv beta. intros a us ts X vs -> (x & E).
      cbn in E. injection E as -> _. auto.
    Qed.

    (** Parsers that read nothing *)
    Lemma still_get {A} (f : pst -> A) : still V (get f).
    Proof. intros s a s' E. now injection E as <- <-. Qed.
    Lemma still_lift {A} (o : option A) : still V (lift o).
    Proof. destruct o; [apply still_ret|apply still_fail]. Qed.
    Lemma still_modify f : (forall s, p_v (f s) = p_v s) -> still V (modify f).
    Proof. intros H s a s' E EV. injection E as <- <-. now rewrite H. Qed.
    Lemma register_match_still n s : p_v (snd (register_match n s)) = p_v s.
    Proof. unfold register_match. destruct (mark_in _ _ _) as [[ok code] ms]. reflexivity. Qed.
    Lemma register_matches_still : forall ns s, p_v (snd (register_matches ns s)) = p_v s.
    Proof.
      induction ns as [|n ns IH]; intros s; cbn [register_matches]; [reflexivity|].
      pose proof (register_match_still n s) as H. destruct (register_match n s) as [ok s1]. specialize (IH s1).
      destruct (register_matches ns s1) as [ok' s2]. cbn [snd] in *. congruence.
    Qed.
    Lemma still_tokenize bs : still V (tokenize K bs).
    Proof.
      intros s a s' E EV. unfold tokenize in E. destruct (tokenize_string _ _ bs) as [v|]; [|discriminate].
      pose proof (register_matches_still (match_refs v) s) as H. destruct (register_matches (match_refs v) s) as [ok s1].
      match type of E with match ?x with _ => _ end = _ => destruct x; [|discriminate] end. injection E as <- <-. cbn in H. congruence.
    Qed.
    Lemma still_next_fail {A} : still V (next K ;; @fail A).
    Proof. apply still_bind; [apply still_next|]. intro. apply still_fail. Qed.
    Ltac still_step :=
      match goal with
      | |- forall _, _ => intro
      | |- still _ (let (_, _) := ?x in _) => destruct x
      | |- still _ fail => apply still_fail
      | |- still _ (ret _) => apply still_ret
      | |- still _ (get _) => apply still_get
      | |- still _ (lift _) => apply still_lift
      | |- still _ (peek _) => apply still_peek
      | |- still _ (modify _) => apply still_modify; solve [intro; reflexivity | let s := fresh in intro s; destruct (p_m s) as [|[ps v] ms]; reflexivity]
      | |- still _ (bind (next _) (fun _ => fail)) => apply still_next_fail
      | |- still _ (bind _ _) => apply still_bind
      | |- still _ (match ?x with _ => _ end) => destruct x
      | |- still _ _ => assumption
      end.
    Ltac still := repeat still_step.
    Lemma still_va n c : still V (va K n c). Proof. unfold va, ParseBase.need. still. Qed.
    Lemma still_check b : still V (check K b). Proof. unfold check. still. Qed.
    Lemma still_validate m k : still V (validate_match K m k). Proof. unfold validate_match. still. Qed.
    Lemma still_reset : still V reset. Proof. unfold reset. still. Qed.
    Lemma still_push_match : still V push_match. Proof. unfold push_match. still. Qed.
    Lemma still_envelope_caps l : still V (envelope_caps K l).
    Proof. induction l; cbn [envelope_caps]; still. all: apply still_va || apply still_check || idtac. Qed.
    Lemma silent_va n c : silent (va K n c). Proof. apply silent_of; [apply GrammarProofs2.silent_va|apply still_va]. Qed.
    Lemma silent_check b : silent (check K b). Proof. apply silent_of; [apply GrammarProofs2.silent_check|apply still_check]. Qed.
    Lemma silent_validate m k : silent (validate_match K m k). Proof. apply silent_of; [apply GrammarProofs2.silent_validate|apply still_validate]. Qed.
    Lemma silent_reset : silent reset. Proof. apply silent_of; [apply GrammarProofs2.silent_reset|apply still_reset]. Qed.
    Lemma silent_push_match : silent push_match. Proof. apply silent_of; [apply GrammarProofs2.silent_push_match|apply still_push_match]. Qed.
    Lemma silent_envelope_caps l : silent (envelope_caps K l).
    Proof. apply silent_of; [apply GrammarProofs2.silent_envelope_caps|apply still_envelope_caps]. Qed.
    Lemma silent_tokenize bs : silent (tokenize K bs). Proof. apply silent_of; [apply GrammarProofs.silent_tokenize|apply still_tokenize]. Qed.
    Lemma silent_same {A} (m : P A) : (forall s a s', m s = Ok a s' -> s' = s) -> silent m.
    Proof.
      intro H. apply silent_of; [|intros s a s' E EV; now rewrite (H _ _ _ E)].
      apply GrammarProofs.silent_same. intros s a s' E. now rewrite (H _ _ _ E).
    Qed.
  End Same.
End Declared.
