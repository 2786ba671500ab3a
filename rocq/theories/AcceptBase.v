(** Proofs that valid scripts are accepted: parsers that do not fail. *)
From Coq Require Import Lia.
From Verif Require Import Base Lib Address Var Value SetVar Flags Comparator Message EditHeader
  Expr ExprTok Event Notify AddrTest Vacation Sieve Utf8 Lexer Scope StringTok HeaderVar Compile ParseArgs ParseBase Parse CompileSpec GrammarSpec
  ArgSpec RefineSpec GrammarProofs AcceptSpec.
Import ListNotations.
Local Open Scope string_scope.
Local Open Scope list_scope.

(** [m] is not rejected at [s]; if it ends, then with [Q]. *)
Definition runs {A} (m : P A) (s : pst) (Q : A -> pst -> Prop) : Prop :=
  match m s with Ok a s' => Q a s' | Err => False | Panic => True | Fuel => True end.

Lemma runs_bind {A B} (m : P A) (k : A -> P B) s Q : runs m s (fun a s' => runs (k a) s' Q) -> runs (bind m k) s Q.
Proof. unfold runs, bind. destruct (m s); auto. Qed.
Lemma runs_weaken {A} (m : P A) s (Q R : A -> pst -> Prop) : runs m s Q -> (forall a s', Q a s' -> R a s') -> runs m s R.
Proof. unfold runs. destruct (m s); auto. Qed.
Lemma runs_ret {A} (a : A) s (Q : A -> pst -> Prop) : Q a s -> runs (ret a) s Q.
Proof. auto. Qed.
Lemma runs_get {A} (f : pst -> A) s (Q : A -> pst -> Prop) : Q (f s) s -> runs (get f) s Q.
Proof. auto. Qed.
Lemma runs_modify f s (Q : unit -> pst -> Prop) : Q tt (f s) -> runs (modify f) s Q.
Proof. auto. Qed.
Lemma runs_then {A B} (m : P A) (k : A -> P B) s (Q : A -> pst -> Prop) R :
  runs m s Q -> (forall a s', Q a s' -> runs (k a) s' R) -> runs (bind m k) s R.
Proof. intros H X. apply runs_bind. eapply runs_weaken; eauto. Qed.
Lemma runs_lift {A} (o : option A) a s (Q : A -> pst -> Prop) : o = Some a -> Q a s -> runs (lift o) s Q.
Proof. intros -> H. exact H. Qed.

(** What parsers of arguments do not change *)
Definition stays (s s' : pst) : Prop :=
  p_caps s' = p_caps s /\
  c_blk (p_c s') = c_blk (p_c s) /\ c_stack (p_c s') = c_stack (p_c s) /\ c_last (p_c s') = c_last (p_c s) /\
  c_includes (p_c s') = c_includes (p_c s) /\ map is_test (c_code (p_c s')) = map is_test (c_code (p_c s)).
Lemma stays_refl s : stays s s.
Proof. repeat split. Qed.
Lemma stays_trans s s' s'' : stays s s' -> stays s' s'' -> stays s s''.
Proof. intros (A & B & C & D & E & F) (A' & B' & C' & D' & E' & F'). repeat split; congruence. Qed.
Definition same (s s' : pst) : Prop := stays s s' /\ p_v s' = p_v s.
Lemma same_refl s : same s s.
Proof. split; [apply stays_refl|reflexivity]. Qed.
Lemma same_trans s s' s'' : same s s' -> same s' s'' -> same s s''.
Proof. intros [A B] [C D]. split; [eapply stays_trans; eauto|congruence]. Qed.

Section Base.
  Variable K : cenv.
  Variable FU : nat.
  Notation L := (C_L K).
  Definition at_ (s : pst) (ts : list tok) : Prop := all_tokens (C_L K) (C_string K) (p_lex s) ts.
  (** The next tokens are [ts]; the rest is as in [s]. *)
  Definition got (s : pst) (ts : list tok) (s' : pst) : Prop := at_ s' ts /\ same s s' /\ p_params s' = p_params s.
  Lemma got_refl s ts : at_ s ts -> got s ts s.
  Proof. intro. split; [assumption|]. split; [apply same_refl|reflexivity]. Qed.
  Lemma got_trans s ts s' ts' s'' : got s ts s' -> got s' ts' s'' -> got s ts' s''.
  Proof. intros (A & B & C) (A' & B' & C'). split; [assumption|]. split; [eapply same_trans; eauto|congruence]. Qed.

  Lemma next_ok s t ts : at_ s (t :: ts) -> runs (next K) s (fun t' s' => t' = t /\ got s ts s').
  Proof.
    intro H. inversion H as [|? ? l' ? E F]; subst. unfold runs, next, unwrap_next. rewrite E. split; [reflexivity|].
    split; [exact F|]. split; [split; [repeat split|reflexivity]|reflexivity].
  Qed.
  Lemma next_opt_ok s t ts : at_ s (t :: ts) -> runs (next_opt K) s (fun t' s' => t' = Some t /\ got s ts s').
  Proof.
    intro H. inversion H as [|? ? l' ? E F]; subst. unfold runs, next_opt. rewrite E. split; [reflexivity|].
    split; [exact F|]. split; [split; [repeat split|reflexivity]|reflexivity].
  Qed.
  Lemma next_opt_end s : at_ s [] -> runs (next_opt K) s (fun t' s' => t' = None /\ same s s').
  Proof.
    intro H. inversion H as [? l' E|]; subst. unfold runs, next_opt. rewrite E. split; [reflexivity|]. split; [repeat split|reflexivity].
  Qed.
  Lemma read_ok {A} (k : tok -> P A) s t ts Q : at_ s (t :: ts) -> (forall s', got s ts s' -> runs (k t) s' Q) -> runs (bind (next K) k) s Q.
  Proof. intros H X. eapply runs_then; [apply next_ok, H|]. intros t' s' [-> G]. auto. Qed.
  Definition peeks (ts : list tok) : peeked := match ts with [] => KEof | t :: _ => KTok t end.
  Lemma peek_ok s ts : at_ s ts -> runs (peek K) s (fun k s' => k = peeks ts /\ got s ts s').
  Proof.
    intro H. unfold runs, peek, lex_peek. destruct (l_next (p_lex s)) as [|t q] eqn:N.
    - inversion H as [? l' E|? t l' ts' E F]; subst; unfold lex_next in E; rewrite N in E; rewrite E.
      + split; [reflexivity|]. split; [|split; [split; [repeat split|reflexivity]|reflexivity]].
        pose proof (go_eof _ _ _ _ _ _ _ _ (Nat.le_refl _) E) as (I1 & I2 & I3). destruct (end_again K l' I1 I2 I3) as (l2 & El).
        eapply all_end. exact El.
      + split; [reflexivity|]. split; [|split; [split; [repeat split|reflexivity]|reflexivity]].
        eapply all_token; [unfold lex_next; reflexivity|]. destruct l'; exact F.
    - inversion H as [? l' E|? t' l' ts' E F]; subst; unfold lex_next in E; rewrite N in E; try discriminate. injection E as -> <-.
      split; [reflexivity|]. split; [exact H|]. split; [repeat split|reflexivity].
  Qed.
  Lemma look_ok {A} (k : peeked -> P A) s ts Q : at_ s ts -> (forall s', got s ts s' -> runs (k (peeks ts)) s' Q) -> runs (bind (peek K) k) s Q.
  Proof. intros H X. eapply runs_then; [apply peek_ok, H|]. intros p s' [-> G]. auto. Qed.
  Lemma expect_ok t s ts : tok_eqb t t = true -> at_ s (t :: ts) -> runs (expect K t) s (fun _ s' => got s ts s').
  Proof. intros E H. unfold expect. eapply read_ok; [exact H|]. intros s' G. rewrite E. exact G. Qed.

  (** *** Strings *)

  Lemma update_tests p i l : forall j, nth_error l p = Some j -> is_test j = is_test i -> map is_test (update p (fun _ => i) l) = map is_test l.
  Proof.
    revert p. induction l as [|x l IH]; intros [|p] j E H; cbn in *; try discriminate.
    - injection E as ->. now rewrite H.
    - now rewrite (IH _ _ E H).
  Qed.
  Lemma mark_tests n ps : forall code v ok code' v', mark n ps code v = (ok, code', v') -> map is_test code' = map is_test code.
  Proof.
    induction ps as [|p ps IH]; intros code v ok code' v' E; cbn [mark] in E; [now injection E as <- <- <-|].
    destruct (nth_error code p) as [[]|] eqn:N; try now injection E as <- <- <-.
    destruct (mark_test n _) as [[t' v1]|]; [|now injection E as <- <- <-]. apply IH in E. rewrite E. eapply update_tests; [exact N|reflexivity].
  Qed.
  Lemma mark_in_tests n ms : forall code ok code' ms', mark_in n ms code = (ok, code', ms') -> map is_test code' = map is_test code.
  Proof.
    induction ms as [|[ps v] ms IH]; intros code ok code' ms' E; cbn [mark_in] in E; [now injection E as <- <- <-|].
    destruct ps as [|p ps].
    - destruct (mark_in n ms code) as [[ok1 c1] m1] eqn:X. injection E as <- <- <-. eauto.
    - destruct (mark n (p :: ps) code v) as [[ok1 c1] v1] eqn:X. injection E as <- <- <-. eapply mark_tests; eauto.
  Qed.
  Lemma register_match_same n s ok s' : register_match n s = (ok, s') -> same s s' /\ p_lex s' = p_lex s /\ p_params s' = p_params s.
  Proof.
    unfold register_match. destruct (mark_in _ _ _) as [[k c] m] eqn:E. apply mark_in_tests in E. intro X. injection X as <- <-.
    repeat split. exact E.
  Qed.
  Lemma register_matches_same ns : forall s ok s', register_matches ns s = (ok, s') -> same s s' /\ p_lex s' = p_lex s /\ p_params s' = p_params s.
  Proof.
    induction ns as [|n ns IH]; intros s ok s' E; cbn [register_matches] in E.
    - injection E as <- <-. repeat split.
    - destruct (register_match n s) as [o1 s1] eqn:E1. destruct (register_matches ns s1) as [o2 s2] eqn:E2. injection E as <- <-.
      apply register_match_same in E1. apply IH in E2. destruct E1 as (A & B & C), E2 as (A' & B' & C').
      split; [eapply same_trans; eauto|]. split; congruence.
  Qed.
  Lemma tokenize_ok bs s ts : at_ s ts -> readable K (p_v s) (TVar bs) ->
    runs (tokenize K bs) s (fun v s' => string_is K (p_v s) (TVar bs) v /\ got s ts s').
  Proof.
    intros H R. cbn [readable] in R. unfold runs, tokenize, resolver. destruct (tokenize_string _ _ bs) as [v|] eqn:E; [|now apply (R true)].
    destruct (register_matches (match_refs v) s) as [ok s'] eqn:F. apply register_matches_same in F. destruct F as (A & B & C).
    destruct (tokenize_string L (resolve_ref L (header_variable (C_M K)) (p_v s) ok) bs) as [v'|] eqn:E'; [|now apply (R ok)].
    split; [exists ok; exact E'|]. split; [unfold at_ in *; now rewrite B|]. split; [exact A|exact C].
  Qed.
  Lemma value_is c : string_is K v_start (TStr c) (value_of c).
  Proof. destruct c; reflexivity. Qed.
  Lemma readable_cases V t : readable K V t -> (exists c, t = TStr c) \/ (exists bs, t = TVar bs).
  Proof. destruct t; cbn; try contradiction; eauto. Qed.
  Lemma string_tok_ok t s ts : at_ s ts -> readable K (p_v s) t ->
    runs (string_tok K t) s (fun v s' => string_is K (p_v s) t v /\ got s ts s').
  Proof.
    intros H R. destruct (readable_cases _ _ R) as [(c & ->)|(bs & ->)].
    - cbn [string_tok]. apply runs_ret. split; [destruct c; reflexivity|now apply got_refl].
    - now apply tokenize_ok.
  Qed.
  Lemma string_ok_tok t s ts good : at_ s ts -> string_ok K (p_v s) good t ->
    runs (string_tok K t) s (fun v s' => good v /\ string_is K (p_v s) t v /\ got s ts s').
  Proof. intros H [R X]. eapply runs_weaken; [eapply string_tok_ok; eauto|]. intros v s' [A B]. auto. Qed.
  Lemma strings_in_app V us l us' l' : strings_in K V us l -> strings_in K V us' l' -> strings_in K V (us ++ us') (l ++ l').
  Proof. induction 1; cbn; [auto| |]; intros; constructor; auto. Qed.
  Lemma string_list_ok good vs : forall fuel s ts l us0,
    separated (string_ok K (p_v s) good) vs -> at_ s (vs ++ TBracketClose :: ts) -> strings_in K (p_v s) us0 l -> Forall good l ->
    runs (loop fuel (fun l => t <- next K ;;
                      match t with
                      | TStr c => ret (inl (l ++ [value_of c]))
                      | TVar bs => v <- tokenize K bs ;; ret (inl (l ++ [v]))
                      | TComma => ret (inl l)
                      | TBracketClose => match l with
                                         | [] => if false then ret (inr l) else fail
                                         | _ => ret (inr l)
                                         end
                      | _ => fail
                      end) l) s
      (fun l' s' => strings_in K (p_v s) (us0 ++ vs) l' /\ l' <> [] /\ Forall good l' /\ got s ts s').
  Proof.
    assert (ONE : forall t s ts l us0, string_ok K (p_v s) good t -> at_ s (t :: ts) -> strings_in K (p_v s) us0 l -> Forall good l ->
      runs (t <- next K ;;
                      match t with
                      | TStr c => ret (inl (l ++ [value_of c]))
                      | TVar bs => v <- tokenize K bs ;; ret (inl (l ++ [v]))
                      | TComma => ret (inl l)
                      | TBracketClose => match l with
                                         | [] => if false then ret (inr l) else fail
                                         | _ => ret (inr l)
                                         end
                      | _ => fail
                      end) s
        (fun r s' => exists l' : list value, r = inl l' /\ strings_in K (p_v s) (us0 ++ [t]) l' /\ l' <> [] /\ Forall good l' /\ got s ts s')).
    { intros t s ts l us0 [R X] H I F. eapply read_ok; [exact H|]. intros s1 G. destruct (readable_cases _ _ R) as [(c & ->)|(bs & ->)].
      - apply runs_ret. exists (l ++ [value_of c]).
        assert (Y : string_is K (p_v s) (TStr c) (value_of c)) by (destruct c; reflexivity).
        split; [reflexivity|]. split; [apply strings_in_app; [exact I|]; constructor; [exact Y|constructor]|].
        split; [destruct l; discriminate|]. split; [apply Forall_app; split; [exact F|]; constructor; [auto|constructor]|exact G].
      - eapply runs_then; [apply tokenize_ok; [apply G|]; destruct G as (_ & (_ & ->) & _); exact R|]. intros v s2 [Y G2].
        assert (Y' : string_is K (p_v s) (TVar bs) v) by (destruct G as (_ & (_ & EV) & _); rewrite EV in Y; exact Y).
        apply runs_ret. exists (l ++ [v]).
        split; [reflexivity|]. split; [apply strings_in_app; [exact I|]; constructor; [exact Y'|constructor]|].
        split; [destruct l; discriminate|]. split; [apply Forall_app; split; [exact F|]; constructor; [auto|constructor]|].
        eapply got_trans; eauto. }
    intros fuel s ts l us0 S. revert fuel l us0. remember (p_v s) as V eqn:EV. revert s EV.
    induction S as [t Q|t us Q S IH]; intros s EV fuel l us0 H I F.
    - destruct fuel as [|fuel]; [exact Logic.I|]. cbn [loop]. subst V. eapply runs_then; [eapply ONE; eauto|].
      intros r s1 (l1 & -> & I1 & N1 & F1 & G1). destruct fuel as [|fuel]; [exact Logic.I|]. cbn [loop].
      apply runs_bind. eapply read_ok; [apply G1|]. intros s2 G2. destruct l1 as [|x l1]; [congruence|]. apply runs_ret. apply runs_ret.
      split; [exact I1|]. split; [discriminate|]. split; [exact F1|]. eapply got_trans; eauto.
    - destruct fuel as [|fuel]; [exact Logic.I|]. cbn [loop]. subst V. eapply runs_then; [eapply ONE; eauto|].
      intros r s1 (l1 & -> & I1 & N1 & F1 & G1). destruct fuel as [|fuel]; [exact Logic.I|]. cbn [loop].
      apply runs_bind. eapply read_ok; [apply G1|]. intros s2 G2. apply runs_ret. pose proof (got_trans _ _ _ _ _ G1 G2) as G3.
      assert (E3 : p_v s2 = p_v s) by apply G3.
      eapply runs_weaken; [apply (IH s2 (eq_sym E3) fuel l1 (us0 ++ [t; TComma]))|].
      + apply G3.
      + replace (us0 ++ [t; TComma]) with ((us0 ++ [t]) ++ [TComma]) by now rewrite <- app_assoc.
        replace l1 with (l1 ++ []) by apply app_nil_r. apply strings_in_app; [exact I1|]. repeat constructor.
      + exact F1.
      + cbv beta. intros l' s' (A & B & C & D). rewrite <- app_assoc in A. split; [exact A|]. split; [exact B|]. split; [exact C|].
        eapply got_trans; eauto.
  Qed.
  Lemma strings_tok_ok good t us s ts : list_of (string_ok K (p_v s) good) (t :: us) -> at_ s (us ++ ts) ->
    runs (strings_tok K FU t) s (fun l s' => strings_are K (p_v s) (t :: us) l /\ Forall good l /\ got s ts s').
  Proof.
    intros [(t' & E & [R X])|(vs & E & S)] H.
    - injection E as <- ->. cbn [app] in H.
      assert (Y : forall v, string_is K (p_v s) t v -> strings_are K (p_v s) [t] [v] /\ Forall good [v]).
      { intros v Y. split; [left; exists t, v; auto|]. constructor; [auto|constructor]. }
      destruct (readable_cases _ _ R) as [(c & ->)|(bs & ->)]; cbn [strings_tok].
      + apply runs_ret. destruct (Y (value_of c)) as [A B]; [destruct c; reflexivity|]. split; [exact A|]. split; [exact B|]. now apply got_refl.
      + eapply runs_then; [eapply tokenize_ok; eauto|]. intros v s' [A G]. apply runs_ret. destruct (Y v A). auto.
    - injection E as -> ->. cbn [strings_tok]. unfold string_list. rewrite <- app_assoc in H.
      eapply runs_weaken; [eapply (string_list_ok good vs FU s ts [] []); [exact S|exact H|constructor|constructor]|].
      cbv beta. intros l s' (A & B & C & G). split; [right; exists vs; auto|]. auto.
  Qed.
  Lemma strings_ok good us s ts : list_of (string_ok K (p_v s) good) us -> at_ s (us ++ ts) ->
    runs (strings K FU) s (fun l s' => strings_are K (p_v s) us l /\ Forall good l /\ got s ts s').
  Proof.
    intros O H. unfold strings. destruct us as [|t us]; [destruct O as [(? & ? & _)|(? & ? & _)]; discriminate|]. cbn [app] in H.
    eapply read_ok; [exact H|]. intros s1 G. assert (EV : p_v s1 = p_v s) by apply G.
    eapply runs_weaken; [apply strings_tok_ok with (good := good); [rewrite EV; exact O|apply G]|].
    cbv beta. intros l s' (A & B & C). rewrite EV in A. split; [exact A|]. split; [exact B|]. eapply got_trans; eauto.
  Qed.
  Lemma string_ok_one good us s ts : one (string_ok K (p_v s) good) us -> at_ s (us ++ ts) ->
    runs (string K FU) s (fun v s' => good v /\ string1 K (p_v s) us v /\ got s ts s').
  Proof.
    intros (t & -> & R & X) H. unfold string. cbn [app] in H. eapply read_ok; [exact H|]. intros s1 G.
    assert (EV : p_v s1 = p_v s) by apply G.
    assert (Y : forall v, string_is K (p_v s) t v -> good v /\ string1 K (p_v s) [t] v).
    { intros v Y. split; [auto|]. left. exists t, v. auto. }
    destruct (readable_cases _ _ R) as [(c & ->)|(bs & ->)].
    - apply runs_ret. destruct (Y (value_of c)) as [A B]; [destruct c; reflexivity|]. auto.
    - eapply runs_weaken; [apply tokenize_ok; [apply G|]; rewrite EV; exact R|]. cbv beta. intros v s' [A G']. rewrite EV in A.
      destruct (Y v A). split; [assumption|]. split; [assumption|]. eapply got_trans; eauto.
  Qed.
  Lemma static_string_ok (Q : text -> Prop) us s ts : one (const K Q) us -> at_ s (us ++ ts) ->
    runs (static_string K FU) s (fun x s' => Q x /\ got s ts s').
  Proof.
    intros (t & -> & c & -> & X) H. unfold static_string. cbn [app] in H. eapply read_ok; [exact H|]. intros s1 G. apply runs_ret. auto.
  Qed.
  Lemma number_ok max us s ts : number_below max us -> at_ s (us ++ ts) -> runs (number K max) s (fun n s' => got s ts s').
  Proof.
    intros (n & -> & X) H. unfold number. cbn [app] in H. eapply read_ok; [exact H|]. intros s1 G. cbv beta iota. rewrite (proj2 (N.ltb_lt _ _) X). exact G.
  Qed.
  Lemma texts_in_app us l us' l' : texts_in K us l -> texts_in K us' l' -> texts_in K (us ++ us') (l ++ l').
  Proof. induction 1; cbn; [auto| |]; intros; constructor; auto. Qed.
  Lemma static_strings_ok (Q : text -> Prop) us s ts : list_of (const K Q) us -> at_ s (us ++ ts) ->
    runs (static_strings K FU) s (fun l s' => texts_are K us l /\ Forall Q l /\ got s ts s').
  Proof.
    intros [(t & -> & c & -> & X)|(vs & -> & S)] H; unfold static_strings; cbn [app] in H; (eapply read_ok; [exact H|]); intros s1 G; cbv iota.
    - apply runs_ret. split; [left; exists c; auto|]. split; [repeat constructor; exact X|exact G].
    - assert (Z : forall fuel s ts l us0, separated (const K Q) vs -> at_ s (vs ++ TBracketClose :: ts) -> texts_in K us0 l -> Forall Q l ->
        runs (loop fuel (fun l => t <- next K ;;
                          match t, l with
                          | TStr c, _ => ret (inl (l ++ [ctext K c]))
                          | TComma, _ => ret (inl l)
                          | TBracketClose, _ :: _ => ret (inr l)
                          | _, _ => fail
                          end) l) s (fun l' s' => texts_in K (us0 ++ vs) l' /\ l' <> [] /\ Forall Q l' /\ got s ts s')).
      { clear. intros fuel s ts l us0 S. revert fuel l us0 s. induction S as [t (c & -> & X)|t us (c & -> & X) S IH]; intros fuel l us0 s H I F;
          destruct fuel as [|fuel]; try exact Logic.I; cbn [loop app] in *; apply runs_bind;
          (eapply read_ok; [exact H|]); intros s1 G1; apply runs_ret; (destruct fuel as [|fuel]; [exact Logic.I|]); cbn [loop];
          apply runs_bind; (eapply read_ok; [apply G1|]); intros s2 G2; cbv iota;
          assert (I' : texts_in K (us0 ++ [TStr c]) (l ++ [ctext K c])) by (apply texts_in_app; [exact I|repeat constructor]);
          assert (F' : Forall Q (l ++ [ctext K c])) by (apply Forall_app; split; [exact F|repeat constructor; exact X]).
        - destruct (l ++ [ctext K c]) as [|y l'] eqn:N; [destruct l; discriminate|]. apply runs_ret. apply runs_ret.
          split; [exact I'|]. split; [discriminate|]. split; [exact F'|]. eapply got_trans; eauto.
        - apply runs_ret. eapply runs_weaken; [apply (IH fuel (l ++ [ctext K c]) (us0 ++ [TStr c; TComma]) s2)|].
          + apply G2.
          + replace (us0 ++ [TStr c; TComma]) with ((us0 ++ [TStr c]) ++ [TComma]) by now rewrite <- app_assoc.
            rewrite <- (app_nil_r (l ++ [ctext K c])). apply texts_in_app; [exact I'|]. repeat constructor.
          + exact F'.
          + cbv beta. intros l' s' (A & B & C & D). rewrite <- app_assoc in A. split; [exact A|]. split; [exact B|]. split; [exact C|].
            eapply got_trans; [eapply got_trans; eauto|eauto]. }
      rewrite <- app_assoc in G. cbn [app] in G. destruct G as (G1 & G2). eapply runs_weaken; [apply (Z FU s1 ts [] [] S G1); constructor|].
      cbv beta. intros l s' (A & B & C & D). split; [right; exists vs; auto|]. split; [exact C|]. eapply got_trans; [split; eassumption|eassumption].
  Qed.

  (** *** Slots and capabilities *)

  Definition capd (c : option String.string) : option capability := option_map cap c.
  Lemma need_ok c s (Q : unit -> pst -> Prop) : allowed K (p_caps s) c -> Q tt s -> runs (need K (capd c)) s Q.
  Proof.
    intros A H. destruct c as [c|]; cbn [capd option_map need]; [|exact H]. apply runs_bind, runs_get.
    cbn [allowed] in A. unfold declared in A. unfold has_cap. rewrite A. exact H.
  Qed.
  Lemma va_ok n c s ts : at_ s ts -> n = 0 \/ ~ In n (p_params s) -> allowed K (p_caps s) c ->
    runs (va K n (capd c)) s (fun _ s' => at_ s' ts /\ same s s' /\ p_params s' = (if Nat.eqb n 0 then p_params s else n :: p_params s)).
  Proof.
    intros H N A. unfold va. destruct n as [|n]; [change (Nat.ltb 0 0) with false|change (Nat.ltb 0 (S n)) with true]; cbv iota.
    - apply runs_bind, runs_ret. apply need_ok; [exact A|]. split; [exact H|]. split; [apply same_refl|reflexivity].
    - destruct N as [N|N]; [discriminate|]. apply runs_bind. apply runs_bind, runs_get.
      assert (E : existsb (Nat.eqb (S n)) (p_params s) = false).
      { destruct (existsb (Nat.eqb (S n)) (p_params s)) eqn:E; [|reflexivity]. apply existsb_exists in E. destruct E as (x & I & E).
        apply Nat.eqb_eq in E. subst x. contradiction. }
      cbv beta. rewrite E. apply runs_modify. apply need_ok; [exact A|]. split; [exact H|]. split; [repeat split|reflexivity].
  Qed.
  Lemma va0_ok c s ts : at_ s ts -> allowed K (p_caps s) c -> runs (va K 0 (capd c)) s (fun _ s' => got s ts s').
  Proof. intros H A. eapply runs_weaken; [eapply va_ok; eauto|]. cbv beta. intros _ s' (B & C & E). split; auto. Qed.
  Lemma reset_ok s ts (Q : unit -> pst -> Prop) : at_ s ts ->
    (forall s', at_ s' ts -> same s s' -> p_params s' = [] -> Q tt s') -> runs reset s Q.
  Proof. intros H X. apply runs_modify. apply X; [exact H|repeat split|reflexivity]. Qed.
  Lemma check_ok b s (Q : unit -> pst -> Prop) : b = true -> Q tt s -> runs (check K b) s Q.
  Proof. intros -> H. exact H. Qed.
  Lemma push_match_ok s ts : at_ s ts -> runs push_match s (fun _ s' => got s ts s').
  Proof.
    intros H. apply runs_modify. destruct (p_m s) as [|[ps v] ms] eqn:E; [now apply got_refl|].
    split; [exact H|]. split; [repeat split|reflexivity].
  Qed.
End Base.
