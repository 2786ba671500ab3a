(** Scripts that are written as the RFC has it. *)
From Coq Require Import Lia.
From Verif Require Import Base Lib Address Var Value SetVar Flags Comparator Message EditHeader
  Expr ExprTok Event Notify AddrTest Vacation Sieve Utf8 Lexer Scope StringTok HeaderVar ParseBase Parse Compile CompileSpec GrammarSpec ArgSpec
  RefineSpec.
Import ListNotations.
Local Open Scope string_scope.
Local Open Scope list_scope.

(** *** How arguments end *)

Definition arg_end (t : tok) : bool := match t with TTag _ | TNumber _ | TBracketClose | TStr _ | TVar _ => true | _ => false end.
Definition args_end (us : list tok) : Prop := us = [] \/ exists vs t, us = vs ++ [t] /\ arg_end t = true.
Lemma args_app us vs : args_end us -> args_end vs -> args_end (us ++ vs).
Proof.
  intros A [->|(ws & t & -> & E)]; [now rewrite app_nil_r|]. right. exists (us ++ ws), t. split; [now rewrite app_assoc|exact E].
Qed.
Lemma args_one t : arg_end t = true -> args_end [t].
Proof. right. exists [], t. auto. Qed.
Lemma args_list us : args_end (TBracketOpen :: us ++ [TBracketClose]).
Proof. right. exists (TBracketOpen :: us), TBracketClose. auto. Qed.
Lemma args_a_strings us : a_strings us -> args_end us.
Proof. intros [(t & -> & S)|(l & -> & _)]; [|apply args_list]. apply args_one. destruct t; try contradiction; reflexivity. Qed.
Lemma args_fits ss : forall us, fits_all ss us -> args_end us.
Proof.
  induction ss as [|s ss IH]; intros us H; cbn [fits_all] in H; [left; exact H|]. destruct H as (vs & ws & -> & F & G). apply args_app; [|auto].
  destruct s; cbn [fits] in F; [now apply args_a_strings|]. destruct F as (n & ->). now apply args_one.
Qed.
Lemma args_splits ts us l : splits ts us l -> args_end us.
Proof.
  intros [-> F]. induction F as [|[[w|] p] l X F IH]; [left; reflexivity| |]; cbn [map concat]; apply args_app; try exact IH; cbn in X |- *.
  - destruct X as (n & ss & _ & _ & X). change (TTag w :: p) with ([TTag w] ++ p). apply args_app; [now apply args_one|eapply args_fits; eauto].
  - now apply args_a_strings.
Qed.
Section Args.
  Variable K : cenv.
  Variable V : vst.
  Lemma args_strings us l : strings_are K V us l -> args_end us.
  Proof.
    intros [(t & v & -> & S & _)|(vs & -> & _)]; [|apply args_list]. apply args_one. destruct t; try contradiction; reflexivity.
  Qed.
  Lemma args_texts us l : texts_are K us l -> args_end us.
  Proof. intros [(c & -> & _)|(vs & -> & _)]; [now apply args_one|apply args_list]. Qed.
  Lemma args_expr us e : expr_is K V us e -> args_end us.
  Proof. intros (t & src & -> & X & _). apply args_one. destruct t; try contradiction; reflexivity. Qed.
  Lemma plain_end n us t : plain_test K V n us t -> args_end us.
  Proof.
    intro H. destruct H; try (eapply args_splits; eassumption); try (eapply args_texts; eassumption); try (eapply args_strings; eassumption);
      repeat (apply args_app; try (eapply args_strings; eassumption)).
    - right. eexists [_], _. split; reflexivity.
    - right. eexists [_], _. split; reflexivity.
  Qed.
  Lemma test_end n us t W : test_is K V n us t W -> args_end us.
  Proof. destruct 1; [eapply plain_end; eassumption|eapply args_splits; eassumption]. Qed.
  Lemma test_name n us t W : test_is K V n us t W -> among ["if"; "elsif"; "not"; "anyof"; "allof"] (lit n) = false.
  Proof. intro H. destruct H as [? ? ? H|]; [destruct H|]; reflexivity. Qed.
End Args.

(** *** Tests *)

(** After this, no word may follow *)
Definition dead (a : tok) : bool :=
  arg_end a || match a with TParenClose => true | TIdent w => negb (among ["if"; "elsif"; "not"; "anyof"; "allof"] w) | _ => false end.
Lemma among_in ws w : among ws w = true <-> exists n, In n ws /\ w = lit n.
Proof.
  unfold among. rewrite existsb_exists. split; intros (n & I & E); exists n; split; auto; [now apply teqb_spec in E|subst; apply teqb_refl].
Qed.
Lemma among_less ws ws' w : incl ws ws' -> among ws' w = false -> among ws w = false.
Proof.
  intros I A. destruct (among ws w) eqn:B; [|reflexivity]. apply among_in in B. destruct B as (n & J & ->).
  assert (C : among ws' (lit n) = true) by (apply among_in; eauto). congruence.
Qed.
Lemma dead_word a b : dead a = true -> match b with TIdent _ | TUnknown _ => True | _ => False end -> may_follow a b = false.
Proof.
  intros D W. assert (X : forall t, word_after a t = false).
  { intro t. destruct a; try discriminate D; try reflexivity. cbn in D |- *. apply Bool.negb_true_iff in D.
    apply (among_less _ _ _ (ltac:(intros x I; cbn in *; tauto) : incl ["if"; "elsif"; "not"] ["if"; "elsif"; "not"; "anyof"; "allof"]) D). }
  destruct b; try contradiction; cbn [may_follow]; rewrite ?X; [|reflexivity]. destruct (among _ _); [|reflexivity]. destruct a; try reflexivity. discriminate.
Qed.
Lemma dead_open a : dead a = true -> may_follow a TParenOpen = false.
Proof.
  intro D. destruct a; try reflexivity. cbn in D |- *. apply Bool.negb_true_iff in D.
  apply (among_less _ _ _ (ltac:(intros x I; cbn in *; tauto) : incl ["anyof"; "allof"] ["if"; "elsif"; "not"; "anyof"; "allof"]) D).
Qed.

Definition agree (a : tok) (k : token) (us : list tok) : Prop :=
  if ends k then dead a = true \/ (us = [] \/ exists t us', us = t :: us' /\ (t = TComma \/ t = TParenClose))
  else opener a = true /\ (may_follow a TParenOpen = true -> k = KAnyOf \/ k = KAllOf).
Lemma regular_app a us b ws : regular a (us ++ b :: ws) = true -> regular b ws = true.
Proof. revert a. induction us as [|x us IH]; intros a N; cbn [app regular] in N; apply andb_prop in N; destruct N as [_ N]; [exact N|eapply IH; exact N]. Qed.
Lemma args_last t us ws : args_end us -> forall a, regular a (t :: us ++ ws) = true -> exists b, regular b ws = true /\ (us = [] /\ b = t \/ dead b = true).
Proof.
  intros A a R. cbn [regular] in R. apply andb_prop in R. destruct R as [_ R]. destruct A as [->|(vs & b & -> & E)].
  - exists t. auto.
  - exists b. split; [rewrite <- app_assoc in R; cbn [app] in R; eapply regular_app; exact R|]. right. unfold dead. now rewrite E.
Qed.
Lemma passed_last t us ws : forall a, regular a (t :: us ++ ws) = true -> exists b, regular b ws = true.
Proof.
  induction us as [|u us IH] using rev_ind; intros a R.
  - exists t. cbn [app regular] in R. apply andb_prop in R. apply R.
  - exists u. rewrite <- app_assoc in R. cbn [app] in R. exact (regular_app a (t :: us) u ws R).
Qed.
Lemma ends_test_head vs : ends_test vs -> vs = [] \/ exists t us', vs = t :: us' /\ (t = TComma \/ t = TParenClose).
Proof. destruct vs as [|t vs]; [auto|]. intro E. right. exists t, vs. split; [reflexivity|]. destruct t; try contradiction; auto. Qed.
Section Reads.
  Variable K : cenv.
  Lemma neat_test W0 V0 : forall us ks, test_reads K W0 V0 us ks -> forall a k ws kk, agree a k us -> regular a (us ++ TCurlyOpen :: ws) = true -> neat KOpen kk = true ->
    neat k (ks ++ KOpen :: kk) = true.
  Proof.
    assert (Word : forall t a k us ws, agree a k (t :: us) -> match t with TIdent _ | TUnknown _ => True | _ => False end ->
              regular a (t :: us ++ TCurlyOpen :: ws) = true -> ends k = false).
    { intros t a k us ws A W R. cbn [regular] in R. apply andb_prop in R. destruct R as [R _]. unfold agree in A. destruct (ends k); [|reflexivity].
      destruct A as [A|[A|(t' & us' & X & Y)]]; [rewrite dead_word in R by assumption; discriminate|discriminate|].
      injection X as <- <-. destruct Y; subst; contradiction. }
    assert (Next : forall t a us ws, regular a (t :: us ++ TCurlyOpen :: ws) = true -> regular t (us ++ TCurlyOpen :: ws) = true).
    { intros t a us ws R. cbn [regular] in R. apply andb_prop in R. apply R. }
    induction 1 as [|V us ks H IH|V us ks H IH|V us ks H IH|V us ks H IH|V us ks H IH|V us ks H IH|V us ks H IH|V us ks H IH|V V1 t us vs i ks L H IH];
      intros a k ws kk A R N; cbn [app neat].
    - rewrite N, Bool.andb_true_r. reflexivity.
    - apply andb_true_intro. split; [|eapply IH; [|eapply Next; exact R|exact N]; split; [reflexivity|discriminate]].
      cbn [neat_pair]. unfold agree in A. destruct (ends k); [reflexivity|]. destruct A as [A _]. cbn [app regular may_follow] in R. rewrite A in R. discriminate.
    - apply andb_true_intro. split; [|eapply IH; [|eapply Next; exact R|exact N]; split; [reflexivity|discriminate]].
      cbn [app regular] in R. apply andb_prop in R. destruct R as [R _]. unfold agree in A. destruct (ends k) eqn:E.
      + destruct A as [A|[A|(t & us' & X & Y)]]; [rewrite dead_open in R by assumption; discriminate|discriminate|]. destruct Y; subst; discriminate X.
      + destruct A as [_ A]. destruct (A R) as [-> | ->]; reflexivity.
    - apply andb_true_intro. split; [|eapply IH; [|eapply Next; exact R|exact N]; left; reflexivity].
      cbn [neat_pair]. unfold agree in A. destruct (ends k); [reflexivity|]. destruct A as [A _]. cbn [app regular may_follow] in R. rewrite A in R. discriminate.
    - apply andb_true_intro. split; [cbn; now rewrite (Word _ _ _ _ _ A Logic.I R)|]. eapply IH; [|eapply Next; exact R|exact N]. split; [reflexivity|discriminate].
    - apply andb_true_intro. split; [cbn; now rewrite (Word _ _ _ _ _ A Logic.I R)|]. eapply IH; [|eapply Next; exact R|exact N]. split; [reflexivity|auto].
    - apply andb_true_intro. split; [cbn; now rewrite (Word _ _ _ _ _ A Logic.I R)|]. eapply IH; [|eapply Next; exact R|exact N]. split; [reflexivity|auto].
    - apply andb_true_intro. split; [cbn; now rewrite (Word _ _ _ _ _ A Logic.I R)|]. eapply IH; [|eapply Next; exact R|exact N]. left; reflexivity.
    - apply andb_true_intro. split; [cbn; now rewrite (Word _ _ _ _ _ A Logic.I R)|]. eapply IH; [|eapply Next; exact R|exact N]. left; reflexivity.
    - assert (W : match t with TIdent _ | TUnknown _ => True | _ => False end) by (destruct L; exact Logic.I).
      apply andb_true_intro. split; [cbn; now rewrite (Word _ _ _ _ _ A W R)|].
      replace ((t :: us ++ vs) ++ TCurlyOpen :: ws) with (t :: us ++ vs ++ TCurlyOpen :: ws) in R by (cbn; now rewrite app_assoc).
      destruct L as [n us vs t W1 L|us vs e L|w us vs L1 L2 L3|w us vs L2 L3].
      + destruct (args_last _ _ _ (test_end _ _ _ _ _ _ L) _ R) as (b & Rb & D). eapply IH; [|exact Rb|exact N]. left.
        destruct D as [[_ ->]|D]; [|exact D]. unfold dead. now rewrite (test_name _ _ _ _ _ _ L), Bool.orb_true_r.
      + destruct (args_last _ _ _ (args_expr _ _ _ _ L) _ R) as (b & Rb & D). eapply IH; [|exact Rb|exact N]. left.
        destruct D as [[_ ->]|D]; [|exact D]. reflexivity.
      + destruct (passed_last _ _ _ _ R) as (b & Rb). eapply IH; [|exact Rb|exact N]. right. now apply ends_test_head.
      + destruct (passed_last _ _ _ _ R) as (b & Rb). eapply IH; [|exact Rb|exact N]. right. now apply ends_test_head.
  Qed.

  (** *** Commands *)
  Definition stands (a : tok) (k : token) : Prop :=
    match a with TSemicolon | TCurlyOpen => True | TCurlyClose => match k with KClose _ => True | _ => False end | _ => False end.
  Lemma unknown_cannot a t w : match a with TSemicolon | TCurlyOpen | TCurlyClose => True | _ => False end ->
    no_command t -> t = TIdent w \/ t = TUnknown w -> may_follow a t = false.
  Proof.
    intros A N [-> | ->]; cbn [may_follow].
    - cbn [no_command] in N. assert (F : among (block_names ++ action_names) w = false).
      { destruct (among _ w) eqn:B; [|reflexivity]. destruct N. apply among_in in B. destruct B as (n & I & ->). unfold named. now apply in_map. }
      rewrite (among_less _ _ _ (ltac:(intros x I; cbn in *; tauto) : incl ["elsif"; "else"] (block_names ++ action_names)) F).
      destruct a; try contradiction; exact F.
    - destruct a; try contradiction; reflexivity.
  Qed.
  Lemma neat_script W D V ts ks : script_reads K W D V ts ks -> forall a k, stands a k -> regular a ts = true -> neat k ks = true.
  Proof.
    assert (Tail : forall a t us b ws, regular a (t :: us ++ b :: ws) = true -> regular b ws = true).
    { intros a t us b ws R. exact (regular_app a (t :: us) b ws R). }
    induction 1; intros a k A R; cbn [neat].
    - reflexivity.
    - apply (IHscript_reads TSemicolon); [exact Logic.I|eauto].
    - apply (neat_test _ _ _ _ H (TIdent (lit "if")) KIf vs); [split; [reflexivity|discriminate]|cbn [regular] in R; apply andb_prop in R; exact (proj2 R)|].
      apply (IHscript_reads TCurlyOpen); [exact Logic.I|eauto].
    - apply andb_true_intro. split.
      + cbn [regular] in R. apply andb_prop in R. destruct R as [R _]. cbn in R. destruct a; try discriminate R. destruct k; try contradiction; reflexivity.
      + apply (neat_test _ _ _ _ H (TIdent (lit "elsif")) KElsIf vs); [split; [reflexivity|discriminate]|cbn [regular] in R; apply andb_prop in R; exact (proj2 R)|].
        apply (IHscript_reads TCurlyOpen); [exact Logic.I|eauto].
    - apply andb_true_intro. split.
      + cbn [regular] in R. apply andb_prop in R. destruct R as [R _]. cbn in R. destruct a; try discriminate R. destruct k; try contradiction; reflexivity.
      + apply (IHscript_reads TCurlyOpen); [exact Logic.I|exact (Tail _ _ [] _ _ R)].
    - apply (IHscript_reads TCurlyOpen); [exact Logic.I|eauto].
    - apply (IHscript_reads TCurlyOpen); [exact Logic.I|eauto].
    - apply (IHscript_reads TSemicolon); [exact Logic.I|eauto].
    - apply (IHscript_reads TSemicolon); [exact Logic.I|exact (Tail _ _ [] _ _ R)].
    - apply (IHscript_reads TSemicolon); [exact Logic.I|exact (Tail _ _ [] _ _ R)].
    - apply (IHscript_reads TSemicolon); [exact Logic.I|eauto].
    - apply (IHscript_reads TSemicolon); [exact Logic.I|eauto].
    - apply (IHscript_reads TSemicolon); [exact Logic.I|eauto].
    - apply (IHscript_reads TSemicolon); [exact Logic.I|eauto].
    - exfalso. cbn [regular] in R. rewrite (unknown_cannot a t w) in R; auto; [discriminate|]. destruct a; try contradiction; exact Logic.I.
    - apply (IHscript_reads TCurlyClose); [exact Logic.I|]. cbn [regular] in R. apply andb_prop in R. exact (proj2 R).
  Qed.

  (** *** What is required *)
  Lemma no_require_front ts : forallb no_require ts = true -> required_in_front ts = true.
  Proof.
    induction ts as [|t ts IH]; [reflexivity|]. intro H. cbn [required_in_front]. destruct (front t); [|exact H]. cbn [forallb] in H. apply andb_prop in H. apply IH, H.
  Qed.
  Lemma front_app us ts : required_in_front (us ++ ts) = true -> required_in_front ts = true.
  Proof.
    induction us as [|u us IH]; [auto|]. cbn [app required_in_front]. destruct (front u); [exact IH|]. intro H. apply no_require_front.
    change (u :: us ++ ts) with ((u :: us) ++ ts) in H. rewrite forallb_app in H. apply andb_prop in H. apply H.
  Qed.
  Lemma test_apart W V us ks : test_reads K W V us ks -> forallb apart ks = true.
  Proof. induction 1; auto. Qed.
  Lemma all_apart W D V ts ks : script_reads K W D V ts ks -> forallb no_require ts = true -> forallb apart ks = true.
  Proof.
    assert (Tail : forall t us b ws, forallb no_require (t :: us ++ b :: ws) = true -> forallb no_require ws = true).
    { intros t us b ws H. cbn [forallb] in H. apply andb_prop in H. destruct H as [_ H]. rewrite forallb_app in H. apply andb_prop in H. destruct H as [_ H].
      cbn [forallb] in H. apply andb_prop in H. apply H. }
    induction 1; intro N; cbn [forallb]; rewrite ?forallb_app; cbn [forallb apart]; auto; try discriminate N;
      try (erewrite test_apart by eassumption); try (apply IHscript_reads); eauto; try exact (Tail _ [] _ _ N).
    - change (t :: us ++ vs) with ((t :: us) ++ vs) in N. rewrite forallb_app in N. apply andb_prop in N. apply N.
  Qed.
  Lemma action_front V n us i W : action_is K V n us i W -> front (TIdent (lit n)) = false.
  Proof. intro H. destruct H as [? ? ? H| | | |]; [destruct H|..]; try reflexivity; match goal with H : In _ _ |- _ => cbn in H; repeat (destruct H as [H|H]); try contradiction; injection H as <- <- end; reflexivity. Qed.
  Lemma first_script W D V ts ks : script_reads K W D V ts ks -> required_in_front ts = true -> required_first ks = true.
  Proof.
    assert (Other : forall D V t ts k ks, script_reads K W D V (t :: ts) (k :: ks) -> front t = false -> match k with KRequire _ => False | _ => True end ->
              required_in_front (t :: ts) = true -> required_first (k :: ks) = true).
    { intros D' V' t ts' k ks' H F N R. replace (required_first (k :: ks')) with (forallb apart (k :: ks')) by (destruct k; try reflexivity; contradiction).
      eapply all_apart; [exact H|]. cbn [required_in_front] in R. rewrite F in R. exact R. }
    induction 1; intro F; [reflexivity| |refine (Other _ _ _ _ _ _ _ _ _ F); [econstructor; eassumption|try reflexivity|exact Logic.I]..].
    - cbn [required_first]. apply IHscript_reads. apply (front_app [TSemicolon]), (front_app us), (front_app [TIdent (lit "require")]).
      replace (([TIdent (lit "require")] ++ us ++ [TSemicolon] ++ vs)) with (TIdent (lit "require") :: us ++ TSemicolon :: vs) by reflexivity. exact F.
    - eapply action_front; eassumption.
    - destruct H0 as [-> | ->]; [|reflexivity]. cbn [front]. destruct (among ["require"] w) eqn:B; [|reflexivity]. apply among_in in B.
      destruct B as (n & I & ->). destruct H. unfold named. apply in_map. cbn in I |- *. tauto.
  Qed.
End Reads.

Lemma continue_read K W D V ts ks : script_reads K W D V ts ks -> In KContinue ks -> In (TIdent (lit "continue")) ts.
Proof.
  assert (T : forall W V us ks, test_reads K W V us ks -> ~ In KContinue ks).
  { induction 1; intro I; [destruct I|..]; destruct I as [I|I]; try discriminate I; auto. }
  induction 1; intro I; [destruct I|..]; destruct I as [I|I]; try discriminate I; try (left; reflexivity);
    try (right; apply in_or_app; right; right; auto; fail); try (right; right; auto; fail).
  - apply in_app_or in I. destruct I as [I|[I|I]]; [edestruct T; eauto|discriminate|]. right. apply in_or_app. right. right. auto.
  - apply in_app_or in I. destruct I as [I|[I|I]]; [edestruct T; eauto|discriminate|]. right. apply in_or_app. right. right. auto.
  - destruct I as [I|I]; [discriminate|]. right. right. auto.
  - destruct I as [I|I]; [discriminate|]. right. apply in_or_app. right. right. auto.
  - destruct I as [I|I]; [discriminate|]. right. apply in_or_app. right. right. auto.
  - right. apply in_or_app. right. auto.
  - right. auto.
Qed.
