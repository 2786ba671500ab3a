(** The parsers of arguments, tests and actions leave the code alone, apart from the
    positions of match variables, and only build instructions whose extensions are
    required. *)
From Coq Require Import Lia.
From Verif Require Import Base Lib Address Var Value SetVar Flags Comparator Message EditHeader
  Expr ExprTok Event Notify AddrTest Vacation Sieve Utf8 Lexer Scope StringTok Run RunSpec Compile CompileSpec ParseArgs ParseBase
  Parse ParseSpec.
Import ListNotations.
Local Open Scope string_scope.

(** What marking a match variable may change. *)
Definition marked (i j : instruction) : Prop :=
  i = j \/ exists t t', i = IxTest t /\ j = IxTest t' /\ test_ext t' = test_ext t /\
                        is_vacation_test (IxTest t') = is_vacation_test (IxTest t).
Lemma marked_refl i : marked i i.
Proof. now left. Qed.
Lemma marked_trans i j k : marked i j -> marked j k -> marked i k.
Proof.
  intros [->|(t & t' & -> & -> & A & B)] H; [exact H|].
  destruct H as [<-|(u & u' & E & -> & C & D)]; [right; eauto 7|]. injection E as <-. right. exists t, u'. repeat split; congruence.
Qed.
Lemma marks_refl l : Forall2 marked l l.
Proof. induction l; constructor; auto using marked_refl. Qed.
Lemma marks_trans : forall l1 l2 l3, Forall2 marked l1 l2 -> Forall2 marked l2 l3 -> Forall2 marked l1 l3.
Proof.
  intros l1 l2 l3 H. revert l3. induction H; intros l3 H3; inversion H3; subst; constructor; eauto using marked_trans.
Qed.
Lemma marks_update f : (forall i, marked i (f i)) -> forall l n, Forall2 marked l (update n f l).
Proof.
  intro F. induction l as [|i l IH]; intros [|n]; cbn; constructor; auto using marked_refl, marks_refl.
Qed.
Lemma mark_type_ext n m m' v : mark_type n m = Some (m', v) -> match_ext m' = match_ext m.
Proof. destruct m; cbn; try discriminate; injection 1 as <- <-; reflexivity. Qed.
Lemma mark_test_ext n t t' v : mark_test n t = Some (t', v) -> test_ext t' = test_ext t /\
  is_vacation_test (IxTest t') = is_vacation_test (IxTest t).
Proof.
  destruct t; cbn [mark_test]; try discriminate;
    match goal with |- option_map _ ?x = _ -> _ => destruct x as [[m' v']|] eqn:E; [|discriminate] end;
    cbn [option_map fst snd]; injection 1 as <- <-; apply mark_type_ext in E; cbn; try rewrite E; auto.
Qed.
Lemma marks_at : forall l n i j, nth_error l n = Some i -> marked i j -> Forall2 marked l (update n (fun _ => j) l).
Proof.
  induction l as [|x l IH]; intros [|n] i j H M; cbn in *; try discriminate.
  - injection H as ->. constructor; auto using marks_refl.
  - constructor; eauto using marked_refl.
Qed.
Lemma mark_marks n : forall ps code v, Forall2 marked code (snd (fst (mark n ps code v))).
Proof.
  induction ps as [|p ps IH]; intros code v; cbn [mark]; [apply marks_refl|].
  destruct (nth_error code p) as [i|] eqn:E; [|apply marks_refl].
  destruct i; try apply marks_refl. destruct (mark_test n t) as [[t' v']|] eqn:M; [|apply marks_refl].
  eapply marks_trans; [|apply IH]. eapply marks_at; [exact E|]. apply mark_test_ext in M as [A B]. right. eauto 7.
Qed.
Lemma mark_in_marks n : forall ms code, Forall2 marked code (snd (fst (mark_in n ms code))).
Proof.
  induction ms as [|[ps v] ms IH]; intros code; cbn [mark_in]; [apply marks_refl|]. destruct ps as [|p ps].
  - specialize (IH code). destruct (mark_in n ms code) as [[ok code'] ms']. exact IH.
  - pose proof (mark_marks n (p :: ps) code v) as H. destruct (mark n (p :: ps) code v) as [[ok code'] v']. exact H.
Qed.

(** Nothing but lexer, variables, match positions and marks has changed. *)
Record still (s s' : pst) : Prop := {
  st_code : Forall2 marked (c_code (p_c s)) (c_code (p_c s'));
  st_blk : c_blk (p_c s') = c_blk (p_c s);
  st_stack : c_stack (p_c s') = c_stack (p_c s);
  st_last : c_last (p_c s') = c_last (p_c s);
  st_incl : c_includes (p_c s') = c_includes (p_c s);
  st_caps : p_caps s' = p_caps s
}.
Lemma still_c s s' : p_c s' = p_c s -> p_caps s' = p_caps s -> still s s'.
Proof. intros A B. constructor; rewrite ?A; auto using marks_refl. Qed.
Lemma still_refl s : still s s.
Proof. now apply still_c. Qed.
Lemma still_trans s s' s'' : still s s' -> still s' s'' -> still s s''.
Proof. intros [A B C D E F] [A' B' C' D' E' F']. constructor; try congruence. eapply marks_trans; eauto. Qed.

Section Caps.
  Variable K : cenv.
  Variable FU : nat.
  Variable cs : list (list capability).

  (** Every capability counts as required if the compiler does not check. *)
  Definition has (c : capability) : Prop := existsb (existsb (cap_eqb c)) cs || C_nocheck K = true.
  Definition allc (l : list String.string) : Prop := Forall (fun n => has (cap n)) l.
  Definition pc {A} (m : P A) (Q : A -> Prop) : Prop :=
    forall s a s', p_caps s = cs -> m s = Ok a s' -> still s s' /\ Q a.
  Definition always {A} (_ : A) : Prop := True.
  Notation st m := (pc m always).

  Lemma pc_ret {A} (a : A) (Q : A -> Prop) : Q a -> pc (ret a) Q.
  Proof. intros H s x s' C E. injection E as <- <-. auto using still_refl. Qed.
  Lemma pc_fail {A} (Q : A -> Prop) : pc fail Q.
  Proof. intros s x s' C E. discriminate. Qed.
  Lemma pc_bind {A B} (m : P A) (k : A -> P B) Q R : pc m Q -> (forall a, Q a -> pc (k a) R) -> pc (bind m k) R.
  Proof.
    intros H1 H2 s b s' C E. unfold bind in E. destruct (m s) as [a s1| | |] eqn:E1; try discriminate.
    destruct (H1 _ _ _ C E1) as [S1 Q1]. destruct (H2 a Q1 _ _ _ (eq_trans (st_caps _ _ S1) C) E) as [S2 Q2].
    split; [eapply still_trans; eauto|exact Q2].
  Qed.
  Lemma pc_weaken {A} (m : P A) (Q R : A -> Prop) : pc m Q -> (forall a, Q a -> R a) -> pc m R.
  Proof. intros H W s a s' C E. destruct (H _ _ _ C E). auto. Qed.
  Lemma pc_bind_st {A B} (m : P A) (k : A -> P B) R : st m -> (forall a, pc (k a) R) -> pc (bind m k) R.
  Proof. intros H1 H2. eapply pc_bind; [exact H1|]. auto. Qed.
  Lemma pc_get {A} (f : pst -> A) : st (get f).
  Proof. intros s x s' C E. injection E as <- <-. split; [apply still_refl|exact I]. Qed.
  Lemma pc_modify f : (forall s, p_c (f s) = p_c s) -> (forall s, p_caps (f s) = p_caps s) -> st (modify f).
  Proof. intros A B s x s' C E. injection E as <- <-. split; [apply still_c; auto|exact I]. Qed.
  Lemma pc_lift {A} (o : option A) (Q : A -> Prop) : (forall a, o = Some a -> Q a) -> pc (lift o) Q.
  Proof. intro H. destruct o; cbn; [apply pc_ret; auto|apply pc_fail]. Qed.
  Lemma pc_loop {A B} (I : A -> Prop) (Q : B -> Prop) (step : A -> P (A + B)) :
    (forall a, I a -> pc (step a) (fun r => match r with inl a' => I a' | inr b => Q b end)) ->
    forall n a, I a -> pc (loop n step a) Q.
  Proof.
    intros H n. induction n as [|n IH]; intros a Ia; [intros s x s' C E; discriminate|].
    cbn [loop]. eapply pc_bind; [exact (H a Ia)|]. intros [a'|b] Hr; [exact (IH a' Hr)|now apply pc_ret].
  Qed.
  Lemma pc_loop_st {A B} (step : A -> P (A + B)) : (forall a, st (step a)) -> forall n a, st (loop n step a).
  Proof.
    intros H n a. apply (pc_loop (fun _ => True) always); [|exact Logic.I]. intros x _. eapply pc_weaken; [apply H|].
    intros [y|y] _; exact Logic.I.
  Qed.

  Lemma pc_next : st (next K).
  Proof.
    intros s a s' C E. unfold next in E. destruct (unwrap_next _ _ _); try discriminate. injection E as <- <-.
    split; [now apply still_c|exact Logic.I].
  Qed.
  Lemma pc_peek : st (peek K).
  Proof.
    intros s a s' C E. unfold peek in E. destruct (lex_peek _ _ _); try discriminate; injection E as <- <-;
      (split; [now apply still_c|exact Logic.I]).
  Qed.
  Lemma register_match_still n s : still s (snd (register_match n s)).
  Proof.
    unfold register_match. pose proof (mark_in_marks n (p_m s) (c_code (p_c s))) as H.
    destruct (mark_in n (p_m s) (c_code (p_c s))) as [[ok code] ms]. constructor; cbn; auto.
  Qed.
  Lemma register_matches_still : forall ns s, still s (snd (register_matches ns s)).
  Proof.
    induction ns as [|n ns IH]; intros s; cbn [register_matches]; [apply still_refl|].
    pose proof (register_match_still n s) as H. destruct (register_match n s) as [ok s1]. specialize (IH s1).
    destruct (register_matches ns s1) as [ok' s2]. eapply still_trans; eauto.
  Qed.
  Lemma pc_tokenize bs : st (tokenize K bs).
  Proof.
    intros s a s' C E. unfold tokenize in E. destruct (tokenize_string _ _ bs); [|discriminate].
    pose proof (register_matches_still (match_refs v) s) as H. destruct (register_matches (match_refs v) s) as [ok s1].
    destruct (tokenize_string _ _ bs); [|discriminate]. injection E as <- <-. split; [exact H|exact Logic.I].
  Qed.
  Lemma pc_register n b : st (register K n b).
  Proof.
    intros s a s' C E. unfold register in E. destruct (register_variable _ _ _ _ _) as [[v vs]|]; [|discriminate].
    injection E as <- <-. split; [now apply still_c|exact Logic.I].
  Qed.
  Lemma pc_on_v f : st (on_v f).
  Proof.
    intros s a s' C E. unfold on_v in E. destruct (f _); [|discriminate]. injection E as <- <-.
    split; [now apply still_c|exact Logic.I].
  Qed.
  Lemma pc_expr : st (parse_expr K).
  Proof.
    unfold parse_expr. apply pc_bind_st; [apply pc_next|]. intro t. apply pc_bind_st; [apply pc_lift; intros; exact Logic.I|].
    intros src s a s' C E. destruct (compile_text _ _ _); try discriminate. injection E as <- <-.
    split; [apply still_refl|exact Logic.I].
  Qed.
  Lemma pc_push_match : st push_match.
  Proof. apply pc_modify; intro s; destruct (p_m s) as [|[ps v] ms]; reflexivity. Qed.
  Lemma pc_need c : pc (need K (Some c)) (fun _ => has c).
  Proof.
    intros s a s' C E. cbn in E. unfold bind, get in E. destruct (has_cap K c s) eqn:H; [|discriminate].
    injection E as <- <-. split; [apply still_refl|]. unfold has_cap in H. unfold has.
    rewrite <- C. destruct (existsb _ _); [reflexivity|]. cbn [orb] in *. now apply andb_true_iff in H as [_ H].
  Qed.
  Definition given_cap (c : option capability) : Prop := match c with Some c => has c | None => True end.
  Lemma pc_va n c : pc (va K n c) (fun _ => given_cap c).
  Proof.
    unfold va. apply pc_bind_st.
    - destruct (Nat.ltb 0 n); [|now apply pc_ret]. apply pc_bind_st; [apply pc_get|]. intro ps.
      destruct (existsb _ ps); [apply pc_fail|]. now apply pc_modify.
    - intros _. destruct c as [c|]; [apply pc_need|now apply pc_ret].
  Qed.
  Lemma pc_reset : st reset.
  Proof. now apply pc_modify. Qed.
  Hint Resolve pc_next pc_peek pc_tokenize pc_register pc_on_v pc_expr pc_push_match pc_reset pc_get : pc.

  Ltac head_of m := match m with ?f _ => head_of f | _ => m end.
  (** For parsers without a postcondition. *)
  Ltac pc_step :=
    match goal with
    | |- forall _, _ => intro
    | |- pc (ret _) _ => apply pc_ret; try exact Logic.I
    | |- pc fail _ => apply pc_fail
    | |- pc (lift _) _ => apply pc_lift; intros; try exact Logic.I
    | |- pc (bind (va _ _ _) _) _ => eapply pc_bind; [apply pc_va|]
    | |- pc (bind _ _) _ => apply pc_bind_st
    | |- pc (loop _ _ _) always => apply pc_loop_st
    | |- pc (match ?x with _ => _ end) _ => destruct x
    | |- pc (if ?x then _ else _) _ => destruct x
    | |- pc _ always => solve [auto with pc]
    end.
  Ltac pcs := repeat pc_step.
  Lemma pc_expect t : st (expect K t). Proof. unfold expect. pcs. Qed.
  Lemma pc_number n : st (number K n). Proof. unfold number. pcs. Qed.
  Lemma pc_static_string : st (static_string K FU). Proof. unfold static_string. pcs. Qed.
  Lemma pc_static_strings : st (static_strings K FU). Proof. unfold static_strings. pcs. Qed.
  Lemma pc_string_tok t : st (string_tok K t). Proof. unfold string_tok. pcs. Qed.
  Hint Resolve pc_expect pc_number pc_static_string pc_static_strings pc_string_tok : pc.
  Lemma pc_string_list b : st (string_list K FU b). Proof. unfold string_list. pcs. Qed.
  Hint Resolve pc_string_list : pc.
  Lemma pc_string : st (string K FU). Proof. unfold string. pcs. Qed.
  Lemma pc_strings_tok t : st (strings_tok K FU t). Proof. unfold strings_tok. pcs. Qed.
  Hint Resolve pc_string pc_strings_tok : pc.
  Lemma pc_strings : st (strings K FU). Proof. unfold strings. pcs. Qed.
  Hint Resolve pc_strings : pc.
  Lemma pc_comparator : st (parse_comparator K FU). Proof. unfold parse_comparator. pcs. Qed.
  Lemma pc_validate m k : st (validate_match K m k). Proof. unfold validate_match. pcs. Qed.
  Lemma pc_check b : st (check K b). Proof. unfold check. pcs. Qed.
  Lemma pc_variable_name t b : st (variable_name K t b). Proof. unfold variable_name. pcs. Qed.
  Lemma pc_ignore_instruction : st (ignore_instruction K FU). Proof. unfold ignore_instruction. pcs. Qed.
  Lemma pc_ignore_test : st (ignore_test K FU). Proof. unfold ignore_test. pcs. Qed.
  Lemma pc_timezone : st (timezone K). Proof. unfold timezone. pcs. Qed.
  Lemma pc_date_tok t : st (date_tok K t). Proof. unfold date_tok. pcs. Qed.
  Hint Resolve pc_comparator pc_validate pc_check pc_variable_name pc_ignore_instruction pc_ignore_test pc_timezone pc_date_tok : pc.
  Lemma pc_envelope_name c : st (envelope_name K c). Proof. unfold envelope_name. pcs. Qed.
  Hint Resolve pc_envelope_name : pc.
  Lemma pc_envelope_list t : st (envelope_list K FU t). Proof. unfold envelope_list. pcs. Qed.
  Lemma pc_envelope_caps : forall l, pc (envelope_caps K l) (fun _ => allc (flat_map envelope_ext l)).
  Proof.
    induction l as [|e l IH]; cbn [envelope_caps flat_map]; [apply pc_ret; constructor|].
    eapply pc_bind; [apply pc_va|]. intros x H. cbv beta in H. eapply pc_weaken; [exact IH|]. intros y R. apply Forall_app. split; [|exact R].
    destruct e; cbn in *; repeat constructor; exact H.
  Qed.
  Lemma pc_register_all b : forall l, st (register_all K l b).
  Proof. induction l; cbn [register_all]; pcs. Qed.
  Hint Resolve pc_envelope_list pc_register_all : pc.
  Lemma pc_match_type w : oneof (match_words true) w = true -> given_cap (match_cap w) -> pc (match_type K w) (fun m => allc (match_ext m)).
  Proof.
    intros O G. unfold match_type, match_cap in *. cbn [oneof match_words app existsb] in *.
    destruct (word "is" w); [apply pc_ret; constructor|]. destruct (word "contains" w); [apply pc_ret; constructor|].
    destruct (word "matches" w); [apply pc_bind_st; [auto with pc|]; intros; apply pc_ret; constructor|].
    destruct (word "value" w) eqn:V; destruct (word "count" w) eqn:Ct; cbn [orb] in *;
      destruct (word "regex" w) eqn:Rg; destruct (word "list" w) eqn:Ls; cbn [orb] in *; try discriminate;
      pcs; cbn [match_ext]; try (constructor; [exact G|constructor]);
      repeat match goal with H : word ?x w = true |- _ => apply teqb_spec in H end; try congruence; subst; discriminate.
  Qed.

  (** *** The arguments *)
  Variable idx tz : bool.
  Variable mb : String.string.
  Definition J (a : args) : Prop :=
    allc (match_ext (a_m a)) /\ allc (part_ext (a_part a)) /\
    (if idx then allc (opt (given (a_index a)) ["index"]) else True) /\ allc (opt (a_any a) ["mime"]) /\
    allc (opt (match a_opts a with MvNone => false | _ => true end) ["mime"]) /\
    (if tz then allc (opt (given (a_tz a)) ["envelope-deliverby"]) else True) /\
    allc (match a_env a with Some l => flat_map envelope_ext l | None => [] end) /\
    allc (opt (a_percent a) ["spamtestplus"]) /\ allc (opt (a_copy a) ["copy"]) /\ allc (opt (a_create a) ["mailbox"]) /\
    allc (opt (nonempty_list (a_flags a)) ["imap4flags"]) /\ allc (opt (given (a_mbid a)) [mb]) /\
    allc (opt (given (a_special a)) ["special-use"]) /\ allc (opt (a_list a) ["extlists"]) /\
    allc (opt (given (a_alimit a) || given (a_rlimit a)) ["redirect-deliverby"]) /\
    allc (match a_ret a with RetDefault => [] | _ => ["redirect-dsn"] end) /\
    allc (match a_dsn a with DsnDefault => [] | _ => ["redirect-dsn"] end) /\
    allc (opt (given (a_fcc a)) ["fcc"]) /\ allc (match a_period a with PSeconds _ => ["vacation-seconds"] | _ => [] end).
  Lemma J0 : J args0.
  Proof. unfold J. cbn. destruct idx, tz; repeat split; constructor. Qed.
  Definition JH (h : handler) : Prop := forall w a, fst h w = true -> J a -> pc (snd h w a) J.
  Definition JD (r : args + args) : Prop := match r with inl a => J a | inr a => J a end.
  Lemma dispatch_J hs w h : Forall JH hs -> dispatch hs w = Some h -> forall a, J a -> pc (h a) J.
  Proof.
    induction hs as [|[f g] hs IH]; intros F E a Ja; [discriminate|]. inversion F; subst. cbn [dispatch] in E.
    destruct (f w) eqn:Ef; [|eauto]. injection E as <-. now apply H1.
  Qed.
  Lemma pc_read_args hs dflt : Forall JH hs -> (forall t a, J a -> pc (dflt t a) JD) -> pc (read_args K FU hs dflt) J.
  Proof.
    intros F D. unfold read_args. apply (pc_loop J J); [|exact J0]. intros a Ja. unfold step_args.
    apply pc_bind_st; [auto with pc|]. intro t.
    assert (Dt : pc (dflt t a) (fun r => match r with inl a' => J a' | inr b => J b end)) by (apply D; exact Ja).
    destruct t; try exact Dt. destruct (dispatch hs _) as [h|] eqn:E; [|exact Dt].
    eapply pc_bind; [eapply dispatch_J; eauto|]. intros a' Ja'. now apply pc_ret.
  Qed.
  Lemma pc_more {A} (m : P A) Q f : pc m Q -> (forall x, Q x -> J (f x)) -> pc (more m f) JD.
  Proof. intros H1 H2. unfold more. eapply pc_bind; [exact H1|]. intros x Hx. apply pc_ret. exact (H2 x Hx). Qed.
  Lemma pc_done {A} (m : P A) Q f : pc m Q -> (forall x, Q x -> J (f x)) -> pc (done m f) JD.
  Proof. intros H1 H2. unfold done. eapply pc_bind; [exact H1|]. intros x Hx. apply pc_ret. exact (H2 x Hx). Qed.
  Lemma allc_app l l' : allc l -> allc l' -> allc (l ++ l').
  Proof. intros. apply Forall_app. auto. Qed.
  Lemma allc_nil : allc [].
  Proof. constructor. Qed.
  Lemma allc_opt b l : allc l -> allc (opt b l).
  Proof. destruct b; [auto|]. intro. constructor. Qed.
  Lemma allc1 n : has (cap n) -> allc [n].
  Proof. intro H. constructor; [exact H|constructor]. Qed.
End Caps.
