(** Proofs about the scripts the compiler accepts: test lists and blocks. *)
From Coq Require Import Lia.
From Verif Require Import Base Lib Address Var Value SetVar Flags Comparator Message EditHeader
  Expr ExprTok Event Notify AddrTest Vacation Sieve Utf8 Lexer Scope StringTok Compile ParseArgs ParseBase Parse GrammarSpec
  GrammarProofs GrammarProofs2.
Import ListNotations.
Local Open Scope string_scope.
Local Open Scope list_scope.

(** *** Grammar *)

Lemma test_head us : a_test us -> exists t us', us = t :: us' /\ is_word_tok t.
Proof.
  destruct 1 as [w us ? ?|us ?|w us ? ?|t us ? ?]; eexists; eexists; (split; [reflexivity|]); try exact Logic.I.
  destruct t; try contradiction; exact Logic.I.
Qed.
(** The rest of a test list, before its end *)
Inductive items : list tok -> Prop :=
| items_nil : items []
| items_cons us vs : a_test us -> items vs -> items (us ++ vs)
| items_comma us vs : a_test us -> items vs -> items (TComma :: us ++ vs).
Lemma items_first us vs : a_test us -> items vs -> some_tests (us ++ vs).
Proof.
  intros A B. revert us A. induction B as [|us' vs A' B IH|us' vs A' B IH]; intros us A.
  - rewrite app_nil_r. now apply tests_one.
  - apply tests_no_comma; auto.
  - apply tests_comma; auto.
Qed.
Lemma items_word t vs : is_word_tok t -> items (t :: vs) -> exists us ws, a_test us /\ items ws /\ t :: vs = us ++ ws.
Proof.
  intros W I. inversion I as [|us ws A B E|us ws A B E]; [exists us, ws; auto|]. subst t. destruct W.
Qed.
Fixpoint need (d : nat) (us : list tok) : Prop :=
  match d with
  | 0 => a_test us
  | S d' => exists vs ws, us = vs ++ TParenClose :: ws /\ items vs /\ match d' with 0 => ws = [] | _ => need d' ws end
  end.
Lemma parens_tail a us : parens_ok (a :: us) -> parens_ok us.
Proof. intros [_ H]. exact H. Qed.
Lemma parens_skip : forall us vs, parens_ok (us ++ vs) -> parens_ok vs.
Proof. induction us as [|a us IH]; intros vs H; [exact H|]. apply IH. exact (parens_tail _ _ H). Qed.
(** A further test in front of what is needed *)
Lemma need_test d us vs : a_test us -> need (S d) vs -> need (S d) (us ++ vs).
Proof.
  intros A (xs & ws & -> & I & N). exists (us ++ xs), ws. split; [now rewrite app_assoc|]. split; [now apply items_cons|exact N].
Qed.
Lemma need_word d t us : is_word_tok t -> need (S d) (t :: us) ->
  exists xs ys, a_test xs /\ t :: us = xs ++ ys /\ need (S d) ys.
Proof.
  intros W (vs & ws & E & I & N). destruct vs as [|t' vs]; [injection E as -> _; destruct W|].
  cbn in E. injection E as <- ->. destruct (items_word _ _ W I) as (xs & ys & A & B & E). exists xs, (ys ++ TParenClose :: ws).
  split; [exact A|]. split; [rewrite app_assoc, <- E; reflexivity|]. exists ys, ws. auto.
Qed.

(** What may come before a parenthesis *)
Definition no_paren (p : tok) (us : list tok) : Prop := opens_list p -> forall vs, us <> TParenOpen :: vs.
Lemma no_paren_other p us : ~ opens_list p -> no_paren p us.
Proof. intros H O. contradiction. Qed.

Lemma named_in l w : named l w <-> existsb (fun n => word n w) l = true.
Proof.
  unfold named, word. rewrite existsb_exists, in_map_iff. split.
  - intros (x & <- & I). exists x. split; [exact I|]. apply teqb_spec. reflexivity.
  - intros (x & I & E). exists x. apply teqb_spec in E. auto.
Qed.
Lemma oneof_named l w : oneof l w = true <-> named l w.
Proof. symmetry. apply named_in. Qed.
Lemma find_word_some {A} w (l : list (String.string * A)) (Q : String.string * A -> Prop) x : Forall Q l -> find_word w l = Some x ->
  exists n, word n w = true /\ Q (n, x).
Proof.
  induction 1 as [|[n y] l H H' IH]; cbn; [discriminate|]. destruct (word n w) eqn:W; [injection 1 as <-; eauto|exact IH].
Qed.
Lemma find_word_none {A} w (l : list (String.string * A)) : find_word w l = None -> ~ named (map fst l) w.
Proof.
  rewrite named_in. induction l as [|[n y] l IH]; cbn; [discriminate|]. destruct (word n w); [discriminate|exact IH].
Qed.
Lemma word_named n w : word n w = true -> w = lit n.
Proof. apply teqb_spec. Qed.

Section Main.
  Variable K : cenv.
  Variable FU : nat.
  Notation eats := (eats K).
  Notation silent := (silent K).
  Notation ar := (ar K).

  Lemma eats_expect t : eats (expect K t) (fun _ us _ => us = [t]).
  Proof.
    unfold expect. eapply eats_bind; [apply eats_next|]. intro x. destruct (tok_eqb x t) eqn:E; [|apply eats_fail].
    apply eats_ret. intros ts us ->. cbn. destruct x, t; try discriminate; reflexivity.
  Qed.
  Lemma eats_pre {A B} (m : P A) (k : A -> P B) (Q : A -> list tok -> list tok -> Prop) (R : B -> list tok -> list tok -> Prop) :
    eats m Q -> (forall a, eats (k a) (fun b vs ts => forall us, Q a us (vs ++ ts) -> R b (us ++ vs) ts)) -> eats (bind m k) R.
  Proof. apply eats_bind. Qed.
  Lemma eats_read {A} (k : tok -> P A) (Q : A -> list tok -> list tok -> Prop) :
    (forall t, eats (k t) (fun a us ts => Q a (t :: us) ts)) -> eats (bind (next K) k) Q.
  Proof.
    intro H. eapply eats_bind; [apply eats_next|]. intro t. eapply eats_weaken; [apply H|]. cbv beta. intros a us ts X vs ->. exact X.
  Qed.

  Definition stops (ts : list tok) : Prop := forall vs, ts <> TParenOpen :: vs.
  Lemma eats_ignore_test_loop : forall n d,
    eats (loop n (fun n => k <- peek K ;;
                      match k with
                      | KEof => ret (inr tt)
                      | KErr => fail
                      | KTok t =>
                          match t, n with
                          | TParenOpen, _ => next K ;; ret (inl (n + 1))
                          | TParenClose, 0 => ret (inr tt)
                          | TParenClose, S n' => next K ;; ret (inl n')
                          | TComma, 0 => ret (inr tt)
                          | TCurlyOpen, _ => ret (inr tt)
                          | _, _ => next K ;; ret (inl n)
                          end
                      end) d) (fun _ us ts => passed d us /\ stops ts).
  Proof.
    induction n as [|n IH]; intros d; [intros s x s' ts E F; discriminate|]. cbn [loop].
    eapply (eats_bind K _ _ (fun r us ts => match r with
              | inl d' => forall vs, passed d' vs -> passed d (us ++ vs)
              | inr _ => us = [] /\ stops ts end)).
    - apply eats_peek_next. intros p. destruct p as [ | |t]; [|apply eats_fail|].
      { apply eats_ret. intros ts S. cbn in S. subst ts. split; [reflexivity|]. intros vs. discriminate. }
      destruct t; try (apply (eats_next_seen K _ _ (fun r us ts => match r with
              | inl d' => forall vs, passed d' vs -> passed d (us ++ vs)
              | inr _ => us = [] /\ stops ts end)); intro u; apply eats_ret; intros ts -> vs H; exact H).
      + apply eats_ret. intros ts (ts' & E). cbn in E. subst ts. split; [reflexivity|]. intros vs. discriminate.
      + destruct d as [|d].
        * apply eats_ret. intros ts (ts' & E). cbn in E. subst ts. split; [reflexivity|]. intros vs. discriminate.
        * apply (eats_next_seen K _ _ (fun r us ts => match r with
              | inl d' => forall vs, passed d' vs -> passed (S d) (us ++ vs)
              | inr _ => us = [] /\ stops ts end)). intro u. apply eats_ret. intros ts -> vs H. cbn. split; [lia|].
          now rewrite Nat.sub_0_r.
      + destruct d as [|d].
        * apply eats_ret. intros ts (ts' & E). cbn in E. subst ts. split; [reflexivity|]. intros vs. discriminate.
        * apply (eats_next_seen K _ _ (fun r us ts => match r with
              | inl d' => forall vs, passed d' vs -> passed (S d) (us ++ vs)
              | inr _ => us = [] /\ stops ts end)). intro u. apply eats_ret. intros ts -> vs H. cbn. split; [lia|exact H].
    - intros [d'|[]].
      + eapply eats_weaken; [apply IH|]. cbv beta iota. intros _ vs ts [A B] us X. auto.
      + apply eats_ret. intros ts us [-> S]. split; [exact Logic.I|exact S].
  Qed.
  Lemma eats_ignore_test : eats (ignore_test K FU) (fun _ us ts => passed 0 us /\ stops ts).
  Proof. apply eats_ignore_test_loop. Qed.
  Lemma eats_ignore_instruction_loop : forall n d,
    eats (loop n (fun n => t <- next K ;;
                      match t, n with
                      | TSemicolon, 0 => ret (inr tt)
                      | TCurlyOpen, _ => ret (inl (n + 1))
                      | TCurlyClose, 0 => fail
                      | TCurlyClose, 1 => ret (inr tt)
                      | TCurlyClose, _ => ret (inl (n - 1))
                      | _, _ => ret (inl n)
                      end) d) (fun _ us _ => passed_command d us).
  Proof.
    induction n as [|n IH]; intros d; [intros s x s' ts E F; discriminate|].
    cbn [loop].
    eapply (eats_bind K _ _ (fun r us ts => match r with
              | inl d' => forall vs, passed_command d' vs -> passed_command d (us ++ vs)
              | inr _ => passed_command d us end)).
    - apply eats_read. intro t.
      destruct t; try (apply eats_ret; intros ts vs H; exact H).
      + destruct d as [|[|d]]; [apply eats_fail|apply eats_ret; intros ts; left; auto|].
        apply eats_ret. intros ts vs H. right. split; [lia|exact H].
      + destruct d as [|d]; apply eats_ret; intros ts; [left; auto|]. intros vs H. right. split; [lia|exact H].
    - intros [d'|[]].
      + eapply eats_weaken; [apply IH|]. cbv beta iota. intros _ vs ts A us X. auto.
      + apply eats_ret. intros ts us X. now rewrite app_nil_r.
  Qed.

  Lemma eats_ignore_instruction : eats (ignore_instruction K FU) (fun _ us _ => passed_command 0 us).
  Proof. apply eats_ignore_instruction_loop. Qed.

  Definition leaf_reads (w : text) (us ts : list tok) : Prop :=
    (named test_names w /\ arguments us) \/ (no_test (TIdent w) /\ passed 0 us /\ stops ts).
  Lemma eats_leaf w : ~ named ["not"; "anyof"; "allof"; "true"; "false"] w -> eats (leaf K FU w) (fun _ us ts => leaf_reads w us ts).
  Proof.
    intro NN. unfold leaf. destruct (word "eval" w) eqn:Ev.
    - apply eats_weaken with (Q := fun _ us _ => arguments us).
      + apply (ar_bind K); [apply ar_silent, silent_va|]. intro. apply (ar_bind K); [apply ar_expr|]. intro. apply ar_silent, silent_ret.
      + intros a us ts H. left. split; [|exact H]. apply word_named in Ev. subst w. apply in_map. cbn. tauto.
    - destruct (find_word w (tests K FU)) as [[c m]|] eqn:E.
      + destruct (find_word_some _ _ _ _ (ar_tests K FU) E) as (n & W & A & N). cbn [fst snd] in A, N. apply word_named in W.
        apply eats_weaken with (Q := fun _ us _ => arguments us).
        * apply (ar_bind K); [apply ar_silent, silent_va|]. intro. apply (ar_bind K); [exact A|]. intro. apply ar_silent, silent_ret.
        * intros a us ts H. left. split; [|exact H]. now rewrite W.
      + apply find_word_none in E.
        eapply eats_bind; [apply eats_ignore_test|]. intro u. apply eats_ret. intros ts us [A B]. rewrite app_nil_r. right.
        split; [|auto]. intro X. rewrite named_in in X, E, NN. rewrite existsb_app in X. apply orb_true_iff in X as [X|X].
        * apply NN. cbn in X |- *. repeat (apply orb_true_iff in X as [X|X]; [rewrite X; cbn; rewrite ?orb_true_r; reflexivity|]). discriminate.
        * cbn [existsb test_names] in X. rewrite Ev in X. cbn in NN.
          destruct (word "true" w) eqn:W1; [apply NN; rewrite ?orb_true_r; reflexivity|].
          destruct (word "false" w) eqn:W2; [apply NN; rewrite ?orb_true_r; reflexivity|]. cbn [orb] in X.
          apply E. clear E NN. cbn [tests map fst existsb]. repeat (apply orb_true_iff in X as [X|X]; [rewrite X; rewrite ?orb_true_r; reflexivity|]).
          discriminate.
  Qed.

  Lemma eats_close_parens n : eats (close_parens K n) (fun _ us _ => n = 0 -> us = []).
  Proof.
    destruct n as [|n]; cbn [close_parens]; [apply eats_ret; auto|].
    apply eats_weaken with (Q := fun _ _ _ => True); [|intros a us ts _ H; discriminate].
    assert (H : forall n, eats (close_parens K n) (fun _ _ _ => True)).
    { clear n. induction n as [|n IH]; cbn [close_parens]; [apply eats_ret; auto|].
      eapply eats_bind; [apply eats_expect|]. intro. eapply eats_weaken; [exact IH|]. auto. }
    eapply eats_bind; [apply eats_expect|]. intro. eapply eats_weaken; [apply H|]. auto.
  Qed.
  Definition sound (b : tblock) (stk : list tblock) : Prop := t_p b = 0 /\ Forall (fun b => t_p b = 0) stk.
  Definition needs (stk : list tblock) (us : list tok) : Prop :=
    forall p, no_paren p us -> parens_ok (p :: us) -> need (length stk) us.
  Definition step_reads (b : tblock) (stk : list tblock) (r : tstate + unit) (us ts : list tok) : Prop :=
    sound b stk ->
    match r with
    | inl (b', stk', _) => forall vs ts', ts = vs ++ ts' -> (sound b' stk' -> needs stk' vs) -> needs stk (us ++ vs)
    | inr _ => needs stk us
    end.
  (** After a test *)
  Lemma eats_after b stk n1 n2 i :
    eats (after_test K b stk n1 n2 i) (fun r us ts => t_p b = 0 -> us = [] /\
      match stk with [] => r = inr tt | _ => exists b' n, r = inl (b', stk, n) /\ t_p b' = 0 end).
  Proof.
    unfold after_test. eapply eats_bind; [apply eats_close_parens|]. intro. eapply eats_bind; [apply silent_push|]. intro.
    destruct stk as [|b1 stk]; apply eats_ret; intros ts us -> vs H Z; specialize (H Z); subst vs; (split; [reflexivity|eauto]).
  Qed.
  Lemma after_step b stk r (xs us ts : list tok) : a_test xs -> (forall vs p, xs = vs ++ [p] -> no_paren p ts) ->
    (t_p b = 0 -> us = [] /\ match stk with [] => r = inr tt | _ => exists b' n, r = inl (b', stk, n) /\ t_p b' = 0 end) ->
    step_reads b stk r (xs ++ us) ts.
  Proof.
    intros T NP H [Z F]. destruct (H Z) as [-> R]. rewrite app_nil_r. destruct stk as [|b1 stk].
    - subst r. intros p _ _. exact T.
    - destruct R as (b' & n & -> & Z'). intros vs ts' -> Hn p _ P. cbn [length]. apply need_test; [exact T|].
      destruct (exists_last (l := xs)) as (ys & q & ->); [destruct (test_head _ T) as (t & us' & -> & _); discriminate|].
      apply (Hn (conj Z' F) q).
      + intros O ws ->. exact (NP _ _ eq_refl O _ eq_refl).
      + apply (parens_skip (p :: ys)). cbn [app] in *. rewrite <- app_assoc in P. exact P.
  Qed.
  Lemma arguments_last us vs p : arguments us -> us = vs ++ [p] -> ~ opens_list p.
  Proof.
    intros (l & F & ->) E. assert (H : Forall (fun t => ~ opens_list t) (concat l)).
    { clear E. induction F as [|x l A F IH]; cbn [concat]; [constructor|]. apply Forall_app. split; [|exact IH].
      destruct A as [t S|n|w|l' F1 _].
      - constructor; [|constructor]. intro O. destruct t; cbn in *; contradiction.
      - repeat constructor. intro O. exact O.
      - repeat constructor. intro O. exact O.
      - constructor; [intro O; exact O|]. apply Forall_app. split; [|constructor; [intro O; exact O|constructor]].
        eapply Forall_impl; [|exact F1]. cbv beta. intros t [S| ->] O; [destruct t; cbn in *; contradiction|exact O]. }
    rewrite E in H. apply Forall_app in H as [_ H]. inversion H. assumption.
  Qed.
  Lemma last_in {A} (t : A) us vs p : t :: us = vs ++ [p] -> (us = [] /\ p = t) \/ exists ws, us = ws ++ [p].
  Proof.
    destruct vs as [|v vs]; cbn; intro E; injection E as -> E; [left; auto|right; eauto].
  Qed.
  Lemma reads_after b stk n1 n2 i (xs : list tok) : a_test xs ->
    eats (after_test K b stk n1 n2 i) (fun r us ts => (forall vs p, xs = vs ++ [p] -> no_paren p ts) -> step_reads b stk r (xs ++ us) ts).
  Proof.
    intro T. eapply eats_weaken; [apply eats_after|]. cbv beta. intros r us ts H NP. eapply after_step; eauto.
  Qed.
  Lemma eats_test_step b stk is_not : eats (test_step K FU (b, stk, is_not)) (step_reads b stk).
  Proof.
    unfold test_step. apply eats_read. intro t. apply eats_silent; [apply silent_reset|]. intro u. destruct t; try apply eats_fail.
    - (* ( *)
      apply eats_ret. intros ts S vs ts' E Hn p NP [[O _] _]. exfalso. exact (NP (O eq_refl) _ eq_refl).
    - (* ) *)
      destruct (t_p b) as [|n] eqn:Z.
      + destruct stk as [|prev stk]; [apply eats_fail|]. apply eats_silent; [apply silent_inside|]. intro.
        apply eats_silent; [apply silent_modify; intro; split; reflexivity|]. intro. destruct stk as [|b1 stk].
        * apply eats_ret. intros ts S p _ _. exists [], []. repeat split. constructor.
        * apply eats_ret. intros ts [_ F] vs ts' -> Hn p NP P. inversion F; subst.
          exists [], vs. split; [reflexivity|]. split; [constructor|]. apply (Hn (conj H1 H2) TParenClose).
          -- apply no_paren_other. intro O. exact O.
          -- exact (parens_tail _ _ P).
      + apply eats_ret. intros ts [Z' _]. congruence.
    - (* , *)
      apply eats_silent; [apply silent_get|]. intro code. destruct (negb _ && _) eqn:C; [|apply eats_fail].
      apply eats_peek_next. intros k. destruct (word_next k) eqn:W; [|apply eats_fail].
      apply eats_silent; [apply silent_push|]. intro. apply eats_ret. intros ts Sn [Z F] vs ts' -> Hn p NP P.
      destruct stk as [|b1 stk]; [discriminate|]. specialize (Hn (conj Z F) TComma). cbn [length] in *.
      assert (N : need (S (length stk)) vs).
      { apply Hn; [apply no_paren_other; intro O; exact O|exact (parens_tail _ _ P)]. }
      destruct vs as [|v vs]; [destruct N as (x & y & E & _); destruct x; discriminate|].
      assert (Wv : is_word_tok v).
      { destruct k as [ | |tk]; try discriminate. destruct Sn as (z & E). cbn in E. injection E as -> _. destruct tk; try discriminate; exact Logic.I. }
      destruct (need_word _ _ _ Wv N) as (xs & ys & A & E & (x & y & -> & I & M)). rewrite E.
      exists (TComma :: xs ++ x), y. split; [cbn; now rewrite <- app_assoc|]. split; [now apply items_comma|exact M].
    - (* a word *)
      destruct (word "not" w) eqn:Wn.
      { apply word_named in Wn. subst w. apply eats_peek_next. intro k. destruct (word_next k) eqn:W; [|apply eats_fail].
        apply eats_ret. intros ts Sn S vs ts' -> Hn p NP P.
        assert (N : need (length stk) vs).
        { apply (Hn S (TIdent (lit "not"))); [apply no_paren_other; intro O; destruct O as [O|[O|[]]]; discriminate|exact (parens_tail _ _ P)]. }
        destruct stk as [|b1 stk]; [apply test_not; exact N|]. cbn [length] in *.
        destruct vs as [|v vs]; [destruct N as (x & y & E & _); destruct x; discriminate|].
        assert (Wv : is_word_tok v).
        { destruct k as [ | |tk]; try discriminate. destruct Sn as (z & E). cbn in E. injection E as -> _. destruct tk; try discriminate; exact Logic.I. }
        destruct (need_word _ _ _ Wv N) as (xs & ys & A & E & M). rewrite E.
        apply (need_test _ (TIdent (lit "not") :: xs)); [now apply test_not|exact M]. }
      destruct (oneof ["anyof"; "allof"] w) eqn:Wa.
      { apply oneof_named in Wa. destruct (Nat.ltb _ _); [|apply eats_fail].
        eapply eats_bind; [apply eats_expect|]. intro. apply eats_ret. intros ts us -> [Z F] vs ts' -> Hn p NP P.
        cbn [app] in *. assert (N : need (S (length stk)) vs).
        { apply (Hn (conj eq_refl (Forall_cons _ Z F)) TParenOpen); [apply no_paren_other; intro O; exact O|].
          exact (parens_tail _ _ (parens_tail _ _ P)). }
        assert (W : match vs with v :: _ => is_word_tok v | [] => False end).
        { destruct vs as [|v vs]; [destruct N as (x & y & E & _); destruct x; discriminate|].
          destruct P as (_ & _ & ((_ & Pw) & _)). exact (Pw eq_refl). }
        destruct vs as [|v vs]; [contradiction|]. destruct N as (x & y & E & I & M).
        destruct x as [|x0 x]; [injection E as -> _; destruct W|]. cbn in E. injection E as <- ->.
        destruct (items_word _ _ W I) as (xs & ys & A & B & E).
        assert (T : a_test (TIdent w :: TParenOpen :: (v :: x) ++ [TParenClose])).
        { apply test_list; [exact Wa|]. rewrite E. now apply items_first. }
        destruct stk as [|b1 stk].
        - cbn in M. subst y. exact T.
        - cbn [length] in *. change (TIdent w :: TParenOpen :: v :: x ++ TParenClose :: y) with
            (TIdent w :: TParenOpen :: (v :: x) ++ [TParenClose] ++ y). rewrite app_assoc.
          apply (need_test _ (TIdent w :: TParenOpen :: (v :: x) ++ [TParenClose])); [exact T|exact M]. }
      assert (Last1 : ~ opens_list (TIdent w)).
      { unfold opens_list. intro O. apply oneof_named in O. congruence. }
      assert (Tw : forall ts vs p, [TIdent w] = vs ++ [p] -> no_paren p ts).
      { intros ts vs p E. apply last_in in E as [[_ ->]|(ws & E)]; [now apply no_paren_other|destruct ws; discriminate]. }
      destruct (word "true" w) eqn:Wt.
      { apply word_named in Wt. subst w.
        eapply eats_weaken; [apply (reads_after b stk false false _ [TIdent (lit "true")])|].
        - apply test_simple; [apply in_map; cbn; tauto|apply arguments_nil].
        - cbv beta. intros r us ts H. apply H. apply Tw. }
      destruct (word "false" w) eqn:Wf.
      { apply word_named in Wf. subst w.
        eapply eats_weaken; [apply (reads_after b stk false false _ [TIdent (lit "false")])|].
        - apply test_simple; [apply in_map; cbn; tauto|apply arguments_nil].
        - cbv beta. intros r us ts H. apply H. apply Tw. }
      eapply eats_bind; [apply eats_leaf|].
      { rewrite named_in. cbn in Wa |- *. rewrite Wn, Wt, Wf. apply orb_false_iff in Wa as [-> Wa]. apply orb_false_iff in Wa as [-> _].
        discriminate. }
      intro i. eapply eats_weaken; [apply eats_after|]. cbv beta. intros r us ts H xs [[N A]|(N & Pa & St)].
      + apply (after_step b stk r (TIdent w :: xs) us); [now apply test_simple| |exact H].
        intros vs p E. apply last_in in E as [[_ ->]|(ws & E)]; [now apply no_paren_other|].
        apply no_paren_other. eapply arguments_last; eauto.
      + intros S. assert (U : us = []) by (destruct S as [Z _]; apply H in Z as [Z _]; exact Z). subst us.
        revert S. apply (after_step b stk r (TIdent w :: xs) []); [now apply test_unknown| |exact H].
        intros vs p E O ws ->. exact (St _ eq_refl).
    - (* an unknown word *)
      eapply eats_bind; [apply eats_ignore_test|]. intro x. eapply eats_weaken; [apply eats_after|]. cbv beta.
      intros r us ts H xs [Pa St] S. assert (U : us = []) by (destruct S as [Z _]; apply H in Z as [Z _]; exact Z). subst us.
      revert S. apply (after_step b stk r (TUnknown s :: xs) []); [apply test_unknown; [exact Logic.I|exact Pa]| |exact H].
      intros vs p E O ws ->. exact (St _ eq_refl).
  Qed.
  Lemma eats_test_loop : forall n b stk is_not,
    eats (loop n (test_step K FU) (b, stk, is_not)) (fun _ us _ => sound b stk -> needs stk us).
  Proof.
    induction n as [|n IH]; intros b stk is_not; [intros s x s' ts E F; discriminate|]. cbn [loop].
    eapply eats_bind; [apply eats_test_step|]. intros [[[b' stk'] n']|[]].
    - eapply eats_weaken; [apply IH|]. cbv beta. intros x vs ts H us R S. exact (R S _ _ eq_refl H).
    - apply eats_ret. intros ts us R S. rewrite app_nil_r. exact (R S).
  Qed.
  Lemma eats_parse_test : eats (parse_test K FU) (fun _ us _ => forall p, ~ opens_list p -> parens_ok (p :: us) -> a_test us).
  Proof.
    unfold parse_test. eapply eats_bind; [apply eats_test_loop|]. intro. eapply eats_weaken; [apply silent_push|]. cbv beta.
    intros x us ts -> vs H p O. rewrite app_nil_r. apply H; [split; [reflexivity|constructor]|]. now apply no_paren_other.
  Qed.
End Main.
