(** Comparisons and expressions that cannot panic. *)
From Coq Require Import Lia.
From Verif Require Import Base Lib Glob GlobSpec GlobProofs Var Value Comparator Flags Message Address AddrTest Spam
  EditHeader Expr ExprProofs Vacation Sieve CalmSpec.

Section C.
  Variable L : rustlib.
  Variable rx : text -> text -> option (list (option text)).
  Hypothesis NE : forall c, chr_lower L c <> [].

  Lemma glob_calm c value pattern p caps : p = 0%N \/ wildcards pattern <= 63 ->
    cmp_glob L c value pattern p caps <> CPanic.
  Proof.
    intro H. unfold cmp_glob, cmp_matches. cbv zeta.
    set (cm := match c with CCasemap => true | _ => false end). clearbody cm.
    destruct (N.eqb_spec p 0) as [->|NP].
    - pose proof (gmatches_exact (chr_is_upper L) (chr_lower L) (str_lower L) pattern cm value) as G.
      cbv zeta in G. destruct (gmatches _ _ _ _) as [b|]; [discriminate|]. exfalso.
      destruct G as [[_ G1] [_ G2]].
      assert (N : ~ glob (pfold (chr_is_upper L) (chr_lower L) cm) pattern (folded_value (str_lower L) cm value))
        by (intro X; specialize (G1 X); discriminate).
      specialize (G2 N). discriminate.
    - destruct H as [->|W]; [contradiction|].
      pose proof (capture_gen (chr_is_upper L) (chr_lower L) (str_lower L) NE pattern cm value p) as G. cbv zeta in G.
      unfold compile in G at 1. rewrite (nwild_compile _ _ (str_lower L) NE) in G by discriminate. specialize (G W).
      destruct (gcapture _ _ _ _ _ _); try discriminate; contradiction.
  Qed.

  Definition key_ok (m : mtype) (k : var) : Prop := sets_nothing m \/ wildcards (v_text L k) <= 63.
  Lemma compare_calm c m value k caps : key_ok m k -> compare1 L rx c m value (KVar k) caps <> CPanic.
  Proof.
    intro H. destruct m as [| |p|p|r|r|]; cbn [compare1]; try discriminate.
    - apply glob_calm. destruct H as [H|H]; [left|right]; exact H.
    - unfold cmp_regex. destruct (rx _ _); [destruct (N.eqb p 0)|]; discriminate.
  Qed.
  Lemma first_key_calm c m value keys : Forall (key_ok m) keys -> forall caps,
    first_key L rx c m value keys caps <> CPanic.
  Proof.
    induction 1 as [|k keys K _ IH]; intro caps; cbn [first_key]; [discriminate|].
    pose proof (compare_calm c m value k caps K) as X.
    destruct (compare1 _ _ _ _ _ _ _) as [|[] caps']; [contradiction|discriminate|apply IH].
  Qed.
  Lemma values_calm c m values keys : Forall (key_ok m) keys -> forall caps,
    values_loop L rx c m values keys caps <> CPanic.
  Proof.
    intro K. induction values as [|v values IH]; intro caps; cbn [values_loop]; [discriminate|].
    pose proof (first_key_calm c m (KStr v) keys K caps) as X.
    destruct (first_key _ _ _ _ _ _ _) as [|[] caps']; [contradiction|discriminate|apply IH].
  Qed.
  Lemma sources_calm enull c m k sources : key_ok m k -> forall r caps,
    sources_loop L rx enull c m k sources r caps <> CPanic.
  Proof.
    intro K. induction sources as [|v sources IH]; intros r caps; cbn [sources_loop]; [discriminate|].
    destruct (_ || _); [|apply IH].
    pose proof (compare_calm c m (KVar v) k caps K) as X.
    destruct (compare1 _ _ _ _ _ _ _) as [|[] caps']; [contradiction|discriminate|apply IH].
  Qed.
  Lemma keys_calm enull c m keys sources : Forall (key_ok m) keys -> forall r caps,
    keys_loop L rx enull c m keys sources r caps <> CPanic.
  Proof.
    induction 1 as [|k keys K _ IH]; intros r caps; cbn [keys_loop]; [discriminate|].
    pose proof (sources_calm enull c m k sources K r caps) as X.
    destruct (sources_loop _ _ _ _ _ _ _ _ _) as [|r' caps']; [contradiction|apply IH].
  Qed.
  Lemma string_calm enull c m neg sources keys : Forall (key_ok m) keys ->
    string_test L rx enull c m neg sources keys <> TPanic.
  Proof.
    intro K. pose proof (keys_calm enull c m keys sources K false []) as X. unfold string_test.
    destruct m; try discriminate; try (destruct (keys_loop _ _ _ _ _ _ _ _ _); [contradiction|discriminate]).
    destruct (fold_left _ _ _); discriminate.
  Qed.
  Lemma metadata_calm store wanted c m neg keys : Forall (key_ok m) keys ->
    metadata_test L rx store wanted c m neg keys <> TPanic.
  Proof.
    intro K. unfold metadata_test. destruct (find _ store) as [[q value]|]; [|discriminate].
    pose proof (first_key_calm c m (KStr value) keys K []) as X.
    destruct m; try discriminate; destruct (first_key _ _ _ _ _ _ _); try contradiction; discriminate.
  Qed.
  Lemma score_calm status unknown c m neg key : key_ok m key ->
    score_test L rx status unknown c m neg key <> TPanic.
  Proof.
    intro K. unfold score_test. pose proof (compare_calm c m (KVar (VInt status)) key [] K) as X.
    destruct m; try discriminate; destruct (compare1 _ _ _ _ _ _ _); try contradiction; discriminate.
  Qed.
  Lemma values_test_calm c m neg values keys : Forall (key_ok m) keys ->
    values_test L rx c m neg values keys <> TPanic.
  Proof.
    intro K. unfold values_test. pose proof (values_calm c m values keys K []) as X.
    destruct m; try discriminate; try (destruct (values_loop _ _ _ _ _ _ _); try contradiction; discriminate).
    destruct (distinct values); discriminate.
  Qed.
  Lemma as_glob_ok m k : key_ok m k -> key_ok (as_glob m) k.
  Proof. destruct m; exact (fun x => x). Qed.
  Lemma hasflag_calm c vars strings cmp m neg : sets_nothing m -> hasflag L c vars strings cmp m neg <> TPanic.
  Proof.
    intro S. unfold hasflag. set (flags := flat_map _ _). clearbody flags.
    assert (A1 : forall f k caps, hasflag1 L cmp m f k caps <> CPanic).
    { intros f k caps. destruct m as [| |p|p|r|r|]; cbn [hasflag1]; try discriminate;
        apply glob_calm; left; exact S. }
    assert (A2 : forall k l caps, hasflag_flags L cmp m k l caps <> CPanic).
    { intro k. induction l as [|f l IH]; intro caps; cbn [hasflag_flags]; [discriminate|].
      pose proof (A1 f k caps) as X. destruct (hasflag1 _ _ _ _ _ _) as [|[] caps']; [contradiction|discriminate|apply IH]. }
    assert (A3 : forall ks caps, hasflag_checks L cmp m ks flags caps <> CPanic).
    { induction ks as [|k ks IH]; intro caps; cbn [hasflag_checks]; [discriminate|].
      pose proof (A2 k flags caps) as X. destruct (hasflag_flags _ _ _ _ _ _) as [|[] caps']; [contradiction|discriminate|apply IH]. }
    pose proof (A3 (flag_tokens L c strings) []) as X.
    destruct m; try discriminate; destruct (hasflag_checks _ _ _ _ _ _); try contradiction; discriminate.
  Qed.

  Lemma exec_calm fns ctx code : calm_code code -> forall fuel pos st,
    exec L false fns ctx fuel code pos st <> EPanic.
  Proof.
    intro C. induction fuel as [|f IH]; intros pos st; [discriminate|]. cbn [exec].
    destruct (nth_error code pos) as [i|] eqn:EI.
    2: { destruct (pop _ _) as [[v [|w l]]|]; discriminate. }
    destruct i as [v|c|b|u|val k|id n| |n].
    - apply IH.
    - apply IH.
    - destruct (popn _ _ _ _) as [[[|l [|r [|z a]]] st']|]; try discriminate. apply IH.
    - destruct (pop _ _) as [[v st']|]; [|discriminate]. destruct u; [apply IH|].
      exfalso. apply C. eapply nth_error_In. exact EI.
    - destruct st; repeat (match goal with |- context [if ?b then _ else _] => destruct b end); try discriminate; apply IH.
    - destruct (popn _ _ _ _) as [[args st']|]; [|discriminate]. destruct (fns id); [apply IH|discriminate].
    - destruct (popn _ _ _ _) as [[[|l [|r [|z a]]] st']|]; try discriminate. apply IH.
    - destruct (popn _ _ _ _) as [[args st']|]; [|discriminate]. apply IH.
  Qed.
End C.
