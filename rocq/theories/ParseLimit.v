(** Proofs: a greater limit does not change what the compiler makes of a script that it accepts. *)
From Coq Require Import Lia.
From Verif Require Import Base Lib Address Var Value SetVar Flags Comparator Message EditHeader
  Expr ExprTok Event Notify AddrTest Vacation Sieve Utf8 Lexer Scope StringTok Compile ParseArgs ParseBase Parse CompLimitSpec.
Import ListNotations.

Definition le {A} (m m' : P A) : Prop := forall s a s', m s = Ok a s' -> m' s = Ok a s'.
Lemma le_refl {A} (m : P A) : le m m. Proof. intros s a s' H. exact H. Qed.
Lemma le_bind {A B} (m m' : P A) (k k' : A -> P B) : le m m' -> (forall a, le (k a) (k' a)) -> le (bind m k) (bind m' k').
Proof.
  intros H1 H2 s b s' E. unfold bind in *. destruct (m s) as [a s1| | |] eqn:E1; try discriminate. rewrite (H1 _ _ _ E1). exact (H2 a _ _ _ E).
Qed.
Lemma le_loop {A B} (f f' : A -> P (A + B)) : (forall a, le (f a) (f' a)) -> forall n a, le (loop n f a) (loop n f' a).
Proof.
  intros H n. induction n as [|n IH]; intro a; [apply le_refl|]. cbn [loop]. apply le_bind; [apply H|]. intros [a'|b]; [apply IH|apply le_refl].
Qed.
Lemma le_fail {A} (m : P A) : le fail m. Proof. intros s a s' H. discriminate H. Qed.
Lemma le_on_v f f' : (forall v v', f v = Some v' -> f' v = Some v') -> le (on_v f) (on_v f').
Proof. intros H s a s' E. unfold on_v in *. destruct (f (p_v s)) eqn:F; [|discriminate]. now rewrite (H _ _ F). Qed.
Lemma le_on_c f f' : (forall v v', f v = Some v' -> f' v = Some v') -> le (on_c f) (on_c f').
Proof. intros H s a s' E. unfold on_c in *. destruct (f (p_c s)) eqn:F; [|discriminate]. now rewrite (H _ _ F). Qed.

Section Limits.
  Variable K : cenv.
  Variables (b t i n h z : nat).
  Hypothesis Hb : l_blocks (C_lim K) <= b.
  Hypothesis Ht : l_tests (C_lim K) <= t.
  Hypothesis Hi : l_includes (C_lim K) <= i.
  Hypothesis Hn : C_name K <= n.
  Hypothesis Hh : C_hsize K <= h.
  Hypothesis Hz : C_script K <= z.
  Variable FU : nat.
  Notation K' := (with_limits K b t i n h z).

  Lemma le_test_step st : le (test_step K FU st) (test_step K' FU st).
  Proof.
    unfold test_step. destruct st as [[bl stk] is_not]. apply le_bind; [apply le_refl|]. intro tk. apply le_bind; [apply le_refl|]. intros _.
    destruct tk; try apply le_refl. destruct (word "not" w); [apply le_refl|]. destruct (oneof _ w); [|apply le_refl].
    destruct (Nat.ltb (length stk) (l_tests (C_lim K))) eqn:Lt; [|apply le_fail].
    apply Nat.ltb_lt in Lt. cbn [with_limits C_lim l_tests]. rewrite (proj2 (Nat.ltb_lt (length stk) t)) by lia. apply le_refl.
  Qed.
  Lemma le_parse_test : le (parse_test K FU) (parse_test K' FU).
  Proof. unfold parse_test. apply le_bind; [|intro; apply le_refl]. apply le_loop. apply le_test_step. Qed.
  Lemma le_globals l : le (globals K l) (globals K' l).
  Proof.
    induction l as [|x l IH]; [apply le_refl|]. cbn [globals]. apply le_bind; [|intro; exact IH]. apply le_on_v. intros v v'. unfold declare_global.
    destruct (get_local_var x v); [discriminate|]. destruct (Nat.ltb (blen x) (C_name K)) eqn:Lt; [|discriminate]. apply Nat.ltb_lt in Lt.
    cbn [with_limits C_name]. rewrite (proj2 (Nat.ltb_lt (blen x) n)) by lia. auto.
  Qed.
  Lemma le_addheader : le (cmd_addheader K FU) (cmd_addheader K' FU).
  Proof.
    unfold cmd_addheader. apply le_bind; [|intro; apply le_refl]. unfold read_args. apply le_loop. intro a. unfold step_args.
    apply le_bind; [apply le_refl|]. intro tk.
    assert (D : forall tk, le
      (v <- string_tok K tk ;;
       match a_name a with
       | None => check K (header_ok K v) ;; ret (inl (s_name (Some v) a))
       | Some _ => check K (match v with XText x => Nat.leb (blen x) (C_hsize K) | _ => true end) ;; ret (inr (s_name2 (Some v) a))
       end)
      (v <- string_tok K' tk ;;
       match a_name a with
       | None => check K' (header_ok K' v) ;; ret (@inl args args (s_name (Some v) a))
       | Some _ => check K' (match v with XText x => Nat.leb (blen x) (C_hsize K') | _ => true end) ;; ret (inr (s_name2 (Some v) a))
       end)).
    { intro tk'. apply le_bind; [apply le_refl|]. intro v. destruct (a_name a); [|apply le_refl]. apply le_bind; [|intro; apply le_refl].
      destruct v; try apply le_refl.
      match goal with |- context [Nat.leb (blen ?x) (C_hsize K)] => rename x into y end. destruct (Nat.leb (blen y) (C_hsize K)) eqn:Le.
      - apply Nat.leb_le in Le. cbn [with_limits C_hsize]. rewrite (proj2 (Nat.leb_le (blen y) h)) by lia. apply le_refl.
      - intros s0 a0 s' E. unfold check, bind in E. destruct (next K s0); discriminate E. }
    destruct tk; try apply D. change (dispatch [h_last K' 1 None] w) with (dispatch [h_last K 1 None] w).
    destruct (dispatch _ w); [apply le_refl|apply D].
  Qed.
  Lemma le_open_all ty l : le (open_all K ty l) (open_all K' ty l).
  Proof.
    unfold open_all. apply le_bind; [apply le_refl|]. intros _. apply le_bind; [|intro; apply le_refl]. apply le_on_c. intros v v'. unfold open.
    destruct (Nat.ltb (length (c_stack v)) (l_blocks (C_lim K))) eqn:Lt; [|discriminate]. apply Nat.ltb_lt in Lt.
    cbn [with_limits C_lim l_blocks]. rewrite (proj2 (Nat.ltb_lt (length (c_stack v)) b)) by lia. auto.
  Qed.
  Lemma find_le w :
    match find_word w (commands K FU), find_word w (commands K' FU) with
    | Some (c, m), Some (c', m') => c' = c /\ le m m'
    | None, None => True
    | _, _ => False
    end.
  Proof.
    assert (G : forall l l' : list (String.string * (option capability * P instruction)),
      Forall2 (fun p p' => fst p' = fst p /\ fst (snd p') = fst (snd p) /\ le (snd (snd p)) (snd (snd p'))) l l' ->
      match find_word w l, find_word w l' with Some (c, m), Some (c', m') => c' = c /\ le m m' | None, None => True | _, _ => False end).
    { intros l l' F. induction F as [|[x [c m]] [x' [c' m']] l l' (E1 & E2 & E3) F IH]; cbn [find_word]; [exact I|]. cbn [fst snd] in *. subst x' c'.
      destruct (word x w); [now split|exact IH]. }
    apply G. unfold commands.
    repeat (apply Forall2_cons; [split; [reflexivity|split; [reflexivity|cbn [snd]; first [exact le_addheader|apply le_refl]]]|]). apply Forall2_nil.
  Qed.
  Lemma le_command w : le (command K FU w) (command K' FU w).
  Proof.
    unfold command. destruct (word "require" w); [apply le_refl|].
    destruct (word "if" w); [apply le_bind; [apply le_parse_test|intro; apply le_refl]|].
    destruct (word "elsif" w).
    { apply le_bind; [apply le_refl|]. intros []; try apply le_refl; (apply le_bind; [apply le_parse_test|intro; apply le_refl]). }
    destruct (word "else" w); [apply le_refl|]. destruct (word "foreverypart" w); [apply le_refl|]. destruct (word "break" w); [apply le_refl|].
    destruct (word "vacation" w); [apply le_refl|].
    destruct (word "include" w).
    { apply le_bind; [apply le_refl|]. intro k. destruct (Nat.ltb k (l_includes (C_lim K))) eqn:Lt; [|apply le_fail]. apply Nat.ltb_lt in Lt.
      cbn [with_limits C_lim l_includes]. rewrite (proj2 (Nat.ltb_lt k i)) by lia. apply le_refl. }
    destruct (word "return" w); [apply le_refl|].
    destruct (word "global" w).
    { do 3 (apply le_bind; [apply le_refl|intro]). apply le_bind; [apply le_globals|intro; apply le_refl]. }
    destruct (word "while" w); [apply le_refl|]. destruct (word "continue" w); [apply le_refl|].
    pose proof (find_le w) as F. destruct (find_word w (commands K FU)) as [[c m]|], (find_word w (commands K' FU)) as [[c' m']|]; try contradiction; [|apply le_refl].
    destruct F as [-> F]. unfold simple. apply le_bind; [apply le_refl|intros _]. apply le_bind; [exact F|intro; apply le_refl].
  Qed.
  Lemma le_main_step u : le (main_step K FU u) (main_step K' FU u).
  Proof.
    unfold main_step. apply le_bind; [apply le_refl|]. intros [tk|]; [|apply le_refl]. apply le_bind; [apply le_refl|]. intros _.
    destruct tk; try apply le_refl. apply le_bind; [apply le_command|]. intros []; try apply le_refl.
    apply le_bind; [apply le_refl|intros _]. apply le_bind; [apply le_open_all|intro; apply le_refl].
  Qed.
  Lemma compile_with_more script x : compile_with K FU script = Compiled x -> compile_with K' FU script = Compiled x.
  Proof.
    unfold compile_with. destruct (Nat.ltb (C_script K) (length script)) eqn:Lt; [discriminate|]. apply Nat.ltb_ge in Lt.
    cbn [with_limits C_script]. rewrite (proj2 (Nat.ltb_ge z (length script))) by lia.
    destruct (loop FU (main_step K FU) tt (init script)) as [u s| | |] eqn:E; try discriminate.
    rewrite (le_loop _ _ le_main_step _ _ _ _ _ E). auto.
  Qed.
End Limits.
