(** Negated tests. *)
From Coq Require Import Lia.
From Verif Require Import Base Lib Address Var Value SetVar Flags Comparator Message EditHeader Expr Event
  Notify Vacation Spam AddrTest Mime Sieve Run RunSpec RunProofs
  Compile CompileSpec ControlSpec CompileProofs5 CompileProofs6.

Definition opposite (a b : xres) : Prop :=
  match a, b with
  | XPanic, XPanic => True
  | XBool x s, XBool y s' => y = negb x /\ s' = s
  | XAsk e n, XAsk e' n' => e' = e /\ n' = negb n
  | XError e, XError e' => e' = e
  | _, _ => False
  end.
Lemma xorb_negb b : xorb b true = negb b.
Proof. now destruct b. Qed.

Section Neg.
  Variable E : renv.
  Lemma not_test s t : fresh_test t = true -> opposite (exec_test E s t) (exec_test E s (set_not_test t)).
  Proof.
    intros F. destruct t; cbn in F; try discriminate F; try (apply negb_true_iff in F; subst); cbn [set_not_test exec_test].
    all: unfold header_test, address_test, envelope_test, exists_test, size_test, body_test, string_test, hasflag, date_test,
      currentdate_test, valid_notify_method, metadata_test, metadata_exists_test, spam_test, virus_test, values_test, score_test, of_tres, of_bool, option_map.
    all: repeat match goal with
      | |- context [fold_left ?f ?l ?a] => destruct (fold_left f l a)
      | |- context [values_loop ?a ?b ?c ?d ?e ?f ?g] => destruct (values_loop a b c d e f g)
      | |- context [match ?x with _ => _ end] =>
          lazymatch x with context [match _ with _ => _ end] => fail | _ => destruct x end
      end; cbn [opposite]; rewrite ?xorb_false_r, ?xorb_true_r; auto.
  Qed.

  Definition flip (s : rst) : rst := w_test (negb (r_test s)) s.
  Lemma flip_flip s : flip (flip s) = s.
  Proof. unfold flip. cbn. rewrite negb_involutive. now destruct s. Qed.
  Lemma feed_flip inp s : no_script inp -> feed inp (flip s) = flip (feed inp s).
  Proof.
    destruct inp as [| | |n x]; cbn; intros N; unfold flip; cbn; try reflexivity; try (destruct (r_test s); reflexivity).
    destruct (Nat.leb _ 63 && Nat.leb _ 256) eqn:A; [|reflexivity]. exfalso. apply N.
    apply andb_true_iff in A as [A B]. split; now apply Nat.leb_le.
  Qed.
  Lemma settles_flip s s' : settles s s' -> settles (flip s) (flip s').
  Proof.
    induction 1 as [s Q|s e q inp s' Q N H IH]; [now apply settles_now|].
    eapply settles_more; [exact Q|exact N|].
    change (w_queue q (flip s)) with (flip (w_queue q s)). rewrite feed_flip by exact N. exact IH.
  Qed.
  Lemma alike_flip s : alike s (flip s).
  Proof. reflexivity. Qed.

  Lemma not_does t x b s2 : fresh_test t = true -> does E (set_not (IxTest t)) x b s2 ->
    does E (IxTest t) x b (flip s2).
  Proof.
    intros F H. pose proof (not_test x t F) as O. cbn [set_not] in H.
    destruct H as [s' H Le|s1 e inp s' H N Se]; cbn [exec_instr] in H.
    - destruct (exec_test E x (set_not_test t)) as [|v y|e n|e] eqn:T2; try discriminate. injection H as <-.
      destruct (exec_test E x t) as [|v' y'|e n|e] eqn:T1; try contradiction. destruct O as [-> ->].
      apply does_silent; [|exact Le]. cbn [exec_instr]. rewrite T1. f_equal. unfold flip. cbn. now rewrite negb_involutive.
    - destruct (exec_test E x (set_not_test t)) as [|v y|e2 n|e2] eqn:T2; try discriminate. injection H as <- ->.
      destruct (exec_test E x t) as [|v' y'|e' n'|e'] eqn:T1; try contradiction. destruct O as [-> ->].
      eapply does_event; [cbn [exec_instr]; rewrite T1; reflexivity|exact N|].
      apply settles_flip in Se. rewrite <- feed_flip in Se by exact N. unfold flip at 1 in Se. cbn in Se. now rewrite negb_involutive in Se.
  Qed.

  (** *** Expressions *)
  Definition jumps_in (code : list instr) : Prop :=
    forall p v k, nth_error code p = Some (IJmp v k) -> p + 1 + k <= length code.
  Definition negated (r r' : eres) : Prop :=
    match r, r' with
    | EDone v, EDone v' => to_bool v' = negb (to_bool v)
    | ECall id args pos st, ECall id' args' pos' st' => id' = id /\ args' = args /\ pos' = pos /\ st' = st
    | EPanic, EPanic => True
    | EFuel, EFuel => True
    | EStack, EStack => True
    | _, _ => False
    end.
  Lemma not_exec L fns ctx code : jumps_in code -> forall f pos st, pos <= length code -> length code - pos < f ->
    negated (exec L false fns ctx f code pos st) (exec L false fns ctx (S f) (code ++ [IUn UNot]) pos st).
  Proof.
    intros J. induction f as [|f IH]; intros pos st P Fu; [lia|].
    destruct (Nat.eq_dec pos (length code)) as [->|Ne].
    - cbn [exec]. rewrite (proj2 (nth_error_None code (length code))) by lia.
      rewrite nth_error_app2, Nat.sub_diag by lia. cbn [nth_error].
      rewrite (proj2 (nth_error_None (code ++ _) (length code + 1))) by (rewrite app_length; cbn; lia).
      assert (B : forall v, to_bool (op_not v) = negb (to_bool v)) by (intros v; cbn; now destruct (to_bool v)).
      destruct st as [|v st]; cbn; [reflexivity|]. destruct st; cbn; apply B.
    - destruct (nth_error code pos) as [i|] eqn:N; [|apply nth_error_None in N; lia].
      assert (N2 : nth_error (code ++ [IUn UNot]) pos = Some i) by (rewrite nth_error_app1 by lia; exact N).
      change (exec L false fns ctx (S (S f)) (code ++ [IUn UNot]) pos st) with
        (match nth_error (code ++ [IUn UNot]) pos with
         | None => match pop false st with Some (v, []) => EDone v | Some (v, _) => EDone v | None => EStack end
         | Some i => match i with
            | IVar v => exec L false fns ctx (S f) (code ++ [IUn UNot]) (pos + 1) (match variable ctx v with Some x => x | None => vdefault end :: st)
            | IConst c => exec L false fns ctx (S f) (code ++ [IUn UNot]) (pos + 1) (c :: st)
            | IUn u => match pop false st with
                       | Some (v, st') => match un_sem L u v with
                                          | Some x => exec L false fns ctx (S f) (code ++ [IUn UNot]) (pos + 1) (x :: st')
                                          | None => EPanic end
                       | None => EStack end
            | IBin b => match popn false 2 [] st with
                        | Some ([l; r], st') => exec L false fns ctx (S f) (code ++ [IUn UNot]) (pos + 1) (bin_sem L b l r :: st')
                        | _ => EStack end
            | IFun id n =>
                match popn false n [] st with
                | Some (args, st') =>
                    match fns id with
                    | Some g => exec L false fns ctx (S f) (code ++ [IUn UNot]) (pos + 1) (g args :: st')
                    | None => ECall (id_external - id)%N args (pos + 1) st' end
                | None => EStack end
            | IJmp val k =>
                match st with
                | [] => if Bool.eqb false val then exec L false fns ctx (S f) (code ++ [IUn UNot]) (pos + 1 + k) st else exec L false fns ctx (S f) (code ++ [IUn UNot]) (pos + 1) st
                | v :: _ => if Bool.eqb (to_bool v) val then exec L false fns ctx (S f) (code ++ [IUn UNot]) (pos + 1 + k) st else exec L false fns ctx (S f) (code ++ [IUn UNot]) (pos + 1) st
                end
            | IIdx => match popn false 2 [] st with
                      | Some ([a; i], st') => exec L false fns ctx (S f) (code ++ [IUn UNot]) (pos + 1) (array_get a i :: st')
                      | _ => EStack end
            | IArr n => match popn false n [] st with
                        | Some (args, st') => exec L false fns ctx (S f) (code ++ [IUn UNot]) (pos + 1) (VArr args :: st')
                        | None => EStack end
            end
         end).
      rewrite N2. remember (S f) as f1 eqn:Q. rewrite Q at 1. cbn [exec]. rewrite N. subst f1.
      assert (Go : forall st, negated (exec L false fns ctx f code (pos + 1) st) (exec L false fns ctx (S f) (code ++ [IUn UNot]) (pos + 1) st))
        by (intros; apply IH; lia).
      destruct i; auto.
      + match goal with |- context [popn ?a ?b ?c ?d] => destruct (popn a b c d) as [[args st']|] end; [|exact I].
        destruct args as [|a1 [|a2 [|]]]; try exact I. apply Go.
      + destruct (pop false st) as [[]|]; [|exact I]. destruct (un_sem L u v); [apply Go|exact I].
      + specialize (J _ _ _ N). destruct st; destruct (Bool.eqb _ _); try apply Go; apply IH; lia.
      + match goal with |- context [popn ?a ?b ?c ?d] => destruct (popn a b c d) as [[args st']|] end; [|exact I]. destruct (fns id); [apply Go|cbn; auto].
      + match goal with |- context [popn ?a ?b ?c ?d] => destruct (popn a b c d) as [[args st']|] end; [|exact I].
        destruct args as [|a1 [|a2 [|]]]; try exact I. apply Go.
      + match goal with |- context [popn ?a ?b ?c ?d] => destruct (popn a b c d) as [[args st']|] end; [|exact I]. apply Go.
  Qed.
  Theorem not_eval L fns ctx code pos st : jumps_in code -> pos <= length code ->
    negated (eval_expression L false fns ctx code pos st) (eval_expression L false fns ctx (code ++ [IUn UNot]) pos st).
  Proof.
    intros J P. unfold eval_expression. rewrite app_length. cbn [length].
    replace (S (length code + 1 - pos)) with (S (S (length code - pos))) by lia. apply not_exec; auto; lia.
  Qed.
End Neg.
