(** Proofs about the words of a script. *)
From Coq Require Import Lia.
From Verif Require Import Base Lib Address Var Value SetVar Flags Comparator Message EditHeader
  Expr ExprTok Event Notify AddrTest Vacation Sieve Run Utf8 Lexer Scope StringTok HeaderVar Compile ParseArgs ParseBase Parse
  CompileSpec GrammarSpec ArgSpec RefineSpec AuditSpec WordSpec RefineProofs7 PropertiesGrammar.
Import ListNotations.
Local Open Scope string_scope.
Local Open Scope list_scope.

(** The words that an instruction is written with; none for jumps and the like *)
Definition test_words (t : test) : list String.string :=
  match t with
  | TeTrue | TeFalse | TeInvalid _ => []
  | TeHeader _ _ _ _ _ _ _ _ => ["header"] | TeAddress _ _ _ _ _ _ _ _ => ["address"] | TeEnvelope _ _ _ _ _ _ _ => ["envelope"]
  | TeExists _ _ _ => ["exists"] | TeSize _ _ _ => ["size"] | TeBody _ _ _ _ _ _ => ["body"] | TeString _ _ _ _ _ => ["string"]
  | TeEnvironment _ _ _ _ _ => ["environment"] | TeHasFlag _ _ _ _ _ => ["hasflag"] | TeDate _ _ _ _ _ _ _ _ _ => ["date"]
  | TeCurrentDate _ _ _ _ _ _ => ["currentdate"] | TeDuplicate _ _ _ _ _ => ["duplicate"] | TeNotifyCapability _ _ _ _ _ _ => ["notify_method_capability"]
  | TeValidNotify _ _ => ["valid_notify_method"] | TeValidExtList _ _ => ["valid_ext_list"] | TeIhave _ _ => ["ihave"]
  | TeMailboxExists _ _ => ["mailboxexists"] | TeMailboxIdExists _ _ => ["mailboxidexists"] | TeSpecialUse _ _ _ => ["specialuse_exists"]
  | TeMetadata _ _ _ _ _ => ["metadata"; "servermetadata"] | TeMetadataExists _ _ _ => ["metadataexists"; "servermetadataexists"]
  | TeSpam _ _ _ _ _ => ["spamtest"] | TeVirus _ _ _ _ => ["virustest"] | TeConvert _ _ _ => ["convert"] | TeVacation _ _ _ _ => ["vacation"]
  end.
Definition words (i : instruction) : list String.string :=
  match i with
  | IxRequire _ | IxJmp _ | IxJz _ | IxJnz _ | IxClear _ _ _ | IxForEveryPart _ | IxForEveryPartPush | IxForEveryPartPop _ | IxReturn | IxInvalid _ => []
  | IxKeep _ => ["keep"] | IxFileInto _ _ _ _ _ _ => ["fileinto"] | IxRedirect _ _ _ _ => ["redirect"] | IxDiscard => ["discard"] | IxStop => ["stop"]
  | IxReject false _ => ["reject"] | IxReject true _ => ["ereject"] | IxTest t => test_words t | IxEval _ => ["eval"] | IxWhile _ _ => ["while"]
  | IxLet _ _ => ["let"] | IxReplace _ _ _ _ => ["replace"] | IxEnclose _ _ _ => ["enclose"] | IxExtract _ _ _ => ["extracttext"]
  | IxConvert _ _ => ["convert"] | IxAddHeader _ _ _ => ["addheader"] | IxDeleteHeader _ _ _ _ _ _ => ["deleteheader"] | IxSet _ _ _ => ["set"]
  | IxNotify _ _ _ _ _ _ => ["notify"] | IxVacation _ _ _ _ _ => ["vacation"] | IxEditFlags _ _ _ => ["setflag"; "addflag"; "removeflag"]
  | IxInclude _ _ _ _ => ["include"] | IxError _ => ["error"]
  end.

Section P.
  Variable ts : list tok.
  Definition said (w : String.string) : Prop := In (TIdent (lit w)) ts.
  Definition shows (i : instruction) : Prop := words i = [] \/ exists w, In w (words i) /\ said w.
  Definition tok_shows (k : token) : Prop :=
    match k with
    | KLeaf i | KAct i | KInclude i | KClose (Some i) => shows i
    | KWhile e => shows (IxWhile e 0)
    | KVacation t v => shows (IxTest t) /\ shows v
    | _ => True
    end.
  Lemma same_words i j : words i = words j -> shows i -> shows j.
  Proof. unfold shows. now intros ->. Qed.
  Lemma update_shows f n : (forall i, words (f i) = words i) -> forall l, Forall shows l -> Forall shows (update n f l).
  Proof.
    intro F. induction n as [|n IH]; intros [|i l] H; cbn [update]; auto; inversion_clear H; constructor; auto.
    eapply same_words; [symmetry; apply F|assumption].
  Qed.
  Lemma patch_shows f ps : (forall i, words (f i) = words i) -> forall l, Forall shows l -> Forall shows (patch f ps l).
  Proof. intro F. unfold patch. induction ps as [|p ps IH]; intros l H; cbn [fold_left]; [exact H|]. apply IH. now apply update_shows. Qed.
  Lemma w_jmp t i : words (to_jmp t i) = words i. Proof. now destruct i. Qed.
  Lemma w_jz t i : words (to_jz t i) = words i. Proof. now destruct i. Qed.
  Lemma w_cond t i : words (to_cond t i) = words i. Proof. now destruct i. Qed.
  Lemma w_for t i : words (to_for t i) = words i. Proof. now destruct i. Qed.
  Lemma w_while t i : words (to_while t i) = words i. Proof. now destruct i. Qed.
  Lemma w_not i : words (set_not i) = words i. Proof. destruct i; try reflexivity. now destruct t. Qed.
  Lemma one i l : Forall shows l -> shows i -> Forall shows (l ++ [i]).
  Proof. intros A B. apply Forall_app. auto. Qed.
  Lemma none i : words i = [] -> shows i.
  Proof. now left. Qed.
  Lemma closings_shows n : forall r r', Forall tok_shows r -> closings n r = Some r' -> Forall tok_shows r'.
  Proof.
    induction n as [|n IH]; intros r r' F H; cbn [closings] in H; [now injection H as <-|].
    destruct r as [|k r]; [discriminate|]. destruct k; try discriminate. eapply IH; [exact (Forall_inv_tail F)|exact H].
  Qed.
  Section Limits.
  Variables (umax : nat) (lim : limits).
  Lemma test_shows fuel : forall r code b stk n code' r', Forall tok_shows r -> Forall shows code ->
    Compile.parse_test umax lim fuel r code b stk n = POk code' r' -> Forall shows code' /\ Forall tok_shows r'.
  Proof.
    induction fuel as [|fuel IH]; intros r code b stk n code' r' R C H; [discriminate|]. cbn [Compile.parse_test] in H.
    assert (Leaf : forall i r0 n0, Forall tok_shows r0 -> shows i ->
      match closings (t_p b) r0 with None => PErr | Some r1 => match stk with [] => POk ((code ++ [i]) ++ [IxJz umax]) r1
        | _ => Compile.parse_test umax lim fuel r1 (code ++ [i]) {| t_all := t_all b; t_not := t_not b; t_p := 0; t_jmps := t_jmps b |} stk n0 end end = POk code' r' ->
      Forall shows code' /\ Forall tok_shows r').
    { intros i r0 n0 R0 Si X. destruct (closings (t_p b) r0) as [r1|] eqn:Q; [|discriminate]. apply closings_shows in Q; [|exact R0].
      destruct stk; [injection X as <- <-; split; [|exact Q]; apply one; [now apply one|now apply none]|]. eapply IH; [exact Q| |exact X]. now apply one. }
    destruct r as [|k r0]; [discriminate|]. pose proof (Forall_inv R) as Rk. pose proof (Forall_inv_tail R) as Rr. cbn [tok_shows] in Rk.
    destruct k; try discriminate H.
    - destruct (peek_word r0); [|discriminate]. eapply IH; [exact Rr|exact C|exact H].
    - destruct (Nat.ltb _ _); [|discriminate]. destruct r0 as [|k r1]; [discriminate|]. destruct k; try discriminate H. eapply IH; [exact (Forall_inv_tail Rr)|exact C|exact H].
    - destruct (Nat.ltb _ _); [|discriminate]. destruct r0 as [|k r1]; [discriminate|]. destruct k; try discriminate H. eapply IH; [exact (Forall_inv_tail Rr)|exact C|exact H].
    - eapply Leaf; [exact Rr| |exact H]. apply none. now destruct n.
    - eapply Leaf; [exact Rr| |exact H]. apply none. now destruct n.
    - eapply Leaf; [exact Rr| |exact H]. destruct n; [|exact Rk]. eapply same_words; [symmetry; apply w_not|exact Rk].
    - destruct stk; [discriminate|]. destruct (_ && _); [|discriminate]. eapply IH; [exact Rr| |exact H]. apply one; [exact C|]. apply none. now destruct (t_all b).
    - eapply IH; [exact Rr|exact C|exact H].
    - destruct (t_p b).
      + destruct stk as [|prev stk]; [discriminate|]. assert (C' : Forall shows (patch (to_cond (length code)) (t_jmps b) code)) by (apply patch_shows; [apply w_cond|exact C]).
        destruct stk; [injection H as <- <-; split; [apply one; [exact C'|now apply none]|exact Rr]|]. eapply IH; [exact Rr|exact C'|exact H].
      + eapply IH; [exact Rr|exact C|exact H].
  Qed.
  Lemma open_code t l s s' : Compile.open lim t l s = Some s' -> c_code s' = c_code s.
  Proof. unfold Compile.open. destruct (Nat.ltb _ _); [|discriminate]. now intros [= <-]. Qed.
  Lemma blocks_code bs s : c_code (with_blocks bs s) = c_code s.
  Proof. now destruct bs. Qed.
  Lemma continue_shows l : forall n k is, do_continue n l = (k, is) -> Forall shows is.
  Proof.
    induction l as [|b l IH]; intros n k is H; cbn [do_continue] in H; [injection H as _ <-; constructor|].
    destruct (b_type b); try (destruct (Nat.eqb n 1); [injection H as _ <-; repeat constructor|eapply IH; exact H]). eapply IH; exact H.
  Qed.
  Lemma then_shows t r s r' s' : Forall tok_shows r -> Forall shows (c_code s) -> Compile.test_then umax lim t r s = Some (r', s') ->
    Forall tok_shows r' /\ Forall shows (c_code s').
  Proof.
    intros R C H. unfold Compile.test_then in H. destruct (Compile.parse_test _ _ _ _ _ _ _ _) as [| |code r1] eqn:P; try discriminate.
    destruct (test_shows _ _ _ _ _ _ _ _ R C P) as [C1 R1]. destruct r1 as [|k r1]; [discriminate|]. destruct k; try discriminate H.
    destruct (Compile.open _ _ _ _) as [s1|] eqn:O; [|discriminate]. injection H as <- <-. apply open_code in O. rewrite O. split; [exact (Forall_inv_tail R1)|exact C1].
  Qed.
  Lemma emit_shows l s : Forall shows (c_code s) -> Forall shows l -> Forall shows (c_code (emit l s)).
  Proof. intros A B. cbn. apply Forall_app. auto. Qed.
  Lemma close_shows k r s s' : (match k with Some i => shows i | None => True end) -> Forall shows (c_code s) -> Compile.close umax k r s = Some s' -> Forall shows (c_code s').
  Proof.
    intros Sk C H. unfold Compile.close in H. destruct (c_stack s) as [|prev stk]; [discriminate|].
    assert (C1 : Forall shows (c_code s ++ match k with Some i => [i] | None => [] end)) by (destruct k; apply Forall_app; auto).
    set (code := c_code s ++ _) in *. clearbody code. cbv zeta in H.
    assert (J : forall p, Forall shows (code ++ [IxJmp p])) by (intro p; apply one; [exact C1|now apply none]).
    destruct (b_type (c_blk s)).
    - injection H as <-. exact C1.
    - destruct r as [|[]]; injection H as <-; cbn [c_code];
        first [apply update_shows; [apply w_jz|apply J]|apply patch_shows; [apply w_jmp|]; apply update_shows; [apply w_jz|exact C1]].
    - destruct r as [|[]]; injection H as <-; cbn [c_code];
        first [apply update_shows; [apply w_jz|apply J]|apply patch_shows; [apply w_jmp|]; apply update_shows; [apply w_jz|exact C1]].
    - injection H as <-. apply patch_shows; [apply w_jmp|exact C1].
    - injection H as <-. apply patch_shows; [apply w_jmp|]. apply update_shows; [apply w_for|apply J].
    - injection H as <-. apply patch_shows; [apply w_jmp|]. apply update_shows; [apply w_while|apply J].
  Qed.
  Lemma command_shows k r s r' s' : Forall tok_shows (k :: r) -> Forall shows (c_code s) -> Compile.command umax lim k r s = Some (r', s') ->
    Forall tok_shows r' /\ Forall shows (c_code s').
  Proof.
    intros R C H. pose proof (Forall_inv R) as Rk. pose proof (Forall_inv_tail R) as Rr. cbn [tok_shows] in Rk.
    assert (Op : forall t l s0 s1, Forall shows (c_code s0) -> match r with KOpen :: r0 => option_map (fun s => (r0, s)) (Compile.open lim t l s0) | _ => None end = Some (r', s1) ->
      Forall tok_shows r' /\ Forall shows (c_code s1)).
    { intros t l s0 s1 C0 X. destruct r as [|k0 r0]; [discriminate|]. destruct k0; try discriminate. destruct (Compile.open _ _ _ _) as [s2|] eqn:O; [|discriminate].
      injection X as <- <-. apply open_code in O. rewrite O. split; [exact (Forall_inv_tail Rr)|exact C0]. }
    destruct k; cbn [Compile.command] in H; try discriminate H.
    - eapply then_shows; [exact Rr| |exact H]. exact C.
    - destruct (c_last s); try discriminate; eapply then_shows; [exact Rr|exact C|exact H|exact Rr|exact C|exact H].
    - destruct (c_last s); try discriminate; eapply Op; [exact C|exact H|exact C|exact H].
    - destruct (Nat.eqb _ _); [discriminate|]. destruct (match label with Some _ => _ | None => _ end); [discriminate|]. eapply Op; [|exact H].
      apply emit_shows; [exact C|]. repeat constructor.
    - eapply Op; [|exact H]. apply emit_shows; [exact C|]. constructor; [exact Rk|constructor].
    - destruct (Compile.do_break umax label s) as [s1|] eqn:B; [|discriminate]. injection H as <- <-. split; [exact Rr|]. unfold Compile.do_break in B. destruct label as [n|].
      + destruct (find_label _ _ _ _) as [[p bs]|]; [|discriminate]. injection B as <-. apply emit_shows; [now rewrite blocks_code|repeat constructor].
      + destruct (find_loop _ _) as [[p bs]|]; [|discriminate]. injection B as <-. apply emit_shows; [now rewrite blocks_code|destruct p; repeat constructor].
    - destruct (do_continue 0 (blocks s)) as [[|[|[|n]]] is] eqn:D; try discriminate. injection H as <- <-. split; [exact Rr|].
      apply emit_shows; [exact C|]. eapply continue_shows; exact D.
    - injection H as <- <-. split; [exact Rr|]. unfold do_return. apply emit_shows; [exact C|]. destruct (length _); repeat constructor.
    - destruct (Nat.ltb _ _); [|discriminate]. injection H as <- <-. split; [exact Rr|]. cbn. now apply one.
    - injection H as <- <-. split; [exact Rr|]. unfold do_require. destruct caps; [exact C|]. destruct (b_require _).
      + cbn. apply update_shows; [intro i; now destruct i|exact C].
      + apply emit_shows; [exact C|repeat constructor].
    - injection H as <- <-. split; [exact Rr|]. apply emit_shows; [exact C|constructor; [exact Rk|constructor]].
    - injection H as <- <-. auto.
    - injection H as <- <-. split; [exact Rr|]. destruct Rk as [A B]. apply emit_shows; [exact C|]. constructor; [exact A|]. constructor; [now left|]. constructor; [exact B|constructor].
    - destruct (Compile.close umax clear r s) as [s1|] eqn:B; [|discriminate]. injection H as <- <-. split; [exact Rr|]. eapply close_shows; [|exact C|exact B]. exact Rk.
  Qed.
  Lemma go_shows fuel : forall r s s', Forall tok_shows r -> Forall shows (c_code s) -> Compile.go umax lim fuel r s = COk s' -> Forall shows (c_code s').
  Proof.
    induction fuel as [|fuel IH]; intros r s s' R C H; (destruct r as [|k r]; cbn [Compile.go] in H; [destruct (c_stack s); [now injection H as <-|discriminate]|]); [discriminate|].
    destruct (Compile.command umax lim k r s) as [[r1 s1]|] eqn:E; [|discriminate]. destruct (command_shows _ _ _ _ _ R C E) as [R1 C1]. eapply IH; eauto.
  Qed.
  End Limits.

  Variable K : cenv.
  Lemma test_said V n us t W : test_is K V n us t W -> said n -> shows (IxTest t).
  Proof. intros H S. right. exists n. split; [|exact S]. destruct H as [n us t H|]; [destruct H; cbn; auto|cbn; auto]. Qed.
  Lemma action_said V n us i W : action_is K V n us i W -> said n -> shows i.
  Proof.
    intros H S. right. exists n. split; [|exact S]. destruct H as [n us i H| | | |w a n v us l W H]; try (cbn; auto; fail).
    - destruct H as [| | | | | | | | | | | | | | | |w a us l H _]; try (cbn; auto; fail). destruct H as [H|[H|[H|[]]]]; injection H as <- _; cbn; auto.
    - destruct H as [H|[H|[H|[]]]]; injection H as <- _; cbn; auto.
  Qed.
  Lemma reads_test_shows W V us ks : test_reads K W V us ks -> incl us ts -> Forall tok_shows ks.
  Proof.
    induction 1 as [| | | | | | | | |V V1 t us vs i ks H R IH]; intro I; try constructor; try exact Logic.I;
      try (apply IHtest_reads; intros x X; apply I; now right).
    - cbn. destruct H as [n us vs t W1 H|us vs e H|w us vs|w us vs].
      + eapply test_said; [exact H|]. apply I. now left.
      + right. exists "eval". split; [now left|]. apply I. now left.
      + now left.
      + now left.
    - apply IH. intros x X. apply I. right. apply in_or_app. now right.
  Qed.
  Lemma reads_shows W D V us ks : script_reads K W D V us ks -> incl us ts -> Forall tok_shows ks.
  Proof.
    induction 1; intro I; try (constructor; fail).
    all: try (repeat (constructor; [exact Logic.I|]); apply IHscript_reads; intros y Y; apply I; first [right; apply in_or_app; right; right; exact Y|right; exact Y|right; right; exact Y]).
    - (* if *) constructor; [exact Logic.I|]. apply Forall_app. split.
      + eapply reads_test_shows; [eassumption|]. intros y Y. apply I. right. apply in_or_app. now left.
      + constructor; [exact Logic.I|]. apply IHscript_reads. intros y Y. apply I. right. apply in_or_app. right. now right.
    - constructor; [exact Logic.I|]. apply Forall_app. split.
      + eapply reads_test_shows; [eassumption|]. intros y Y. apply I. right. apply in_or_app. now left.
      + constructor; [exact Logic.I|]. apply IHscript_reads. intros y Y. apply I. right. apply in_or_app. right. now right.
    - (* while *) constructor; [right; exists "while"; split; [now left|apply I; now left]|]. constructor; [exact Logic.I|].
      apply IHscript_reads. intros y Y. apply I. right. apply in_or_app. right. now right.
    - (* include *) constructor.
      + destruct H as (l & x & n & g & o & p & _ & _ & _ & _ & _ & _ & ->). right. exists "include". split; [now left|apply I; now left].
      + apply IHscript_reads. intros y Y. apply I. right. apply in_or_app. right. now right.
    - (* vacation *) constructor.
      + destruct H as (l & x & r & su & fr & mi & ad & ha & p & f & _ & _ & _ & _ & _ & _ & _ & _ & _ & _ & -> & ->).
        split; right; exists "vacation"; (split; [now left|apply I; now left]).
      + apply IHscript_reads. intros y Y. apply I. right. apply in_or_app. right. now right.
    - (* action *) constructor.
      + eapply action_said; [eassumption|]. apply I. now left.
      + apply IHscript_reads. intros y Y. apply I. right. apply in_or_app. right. now right.
    - (* unknown *) constructor; [now left|]. apply IHscript_reads. intros y Y. apply I. right. apply in_or_app. now right.
    - (* close *) constructor.
      + unfold cleared. destruct (Nat.ltb 0 num); [now left|]. destruct (N.eqb mv 0); [exact Logic.I|now left].
      + apply IHscript_reads. intros y Y. apply I. now right.
  Qed.
  Lemma moved_words o m i : words (moved K o (capture m i)) = words i.
  Proof. unfold moved. destruct o; destruct i; try reflexivity; try (destruct t; reflexivity). all: cbn; repeat match goal with |- context [let (_, _) := ?x in _] => destruct x end; reflexivity. Qed.
  Lemma like_shows o ks ks' : Forall2 (tok_like (fun i i' => exists m, i' = moved K o (capture m i))) ks ks' -> Forall tok_shows ks -> Forall tok_shows ks'.
  Proof.
    assert (M : forall i j, (exists m, j = moved K o (capture m i)) -> shows i -> shows j) by (intros i j (m & ->) S; eapply same_words; [symmetry; apply moved_words|exact S]).
    induction 1 as [|k k' l l' T F IH]; intro A; constructor; [|apply IH; exact (Forall_inv_tail A)]. apply Forall_inv in A.
    destruct T; cbn [tok_shows] in A |- *; eauto.
    - destruct A as [A B]. split; [exact (M _ _ H A)|exact (M _ _ H0 B)].
  Qed.
End P.
Lemma compiled_words K script ts x i : Parse.compile K script = Compiled x -> tokens_from (C_L K) (C_string K) (lex_start script) ts ->
  In i (s_code x) -> words i <> [] -> exists w, In w (words i) /\ In (TIdent (lit w)) ts.
Proof.
  intros C T I N. destruct (compile_with_refines _ _ _ _ C) as (ts' & ks & ks' & W & T' & R & F & _ & Q).
  rewrite <- (tokens_unique _ _ _ _ T _ T') in *. unfold Compile.compile in Q. destruct (Compile.go _ _ _ _ _) as [| |s] eqn:G; try discriminate. injection Q as Q.
  assert (S : Forall (shows ts) (s_code x)).
  { rewrite <- Q. apply (go_shows ts) with (3 := G); [|constructor]. eapply like_shows; [exact F|]. eapply reads_shows; [exact R|apply incl_refl]. }
  destruct (proj1 (Forall_forall _ _) S i I) as [X|X]; [contradiction|exact X].
Qed.
Lemma causes_words i e : causes i e -> words i <> [] /\ incl (words i) (effect_words e).
Proof.
  intro H. destruct e; cbn [causes] in H; try contradiction H.
  all: try (destruct i; try contradiction H).
  all: try (destruct t; try contradiction H).
  all: try (destruct r; try contradiction H).
  all: try discriminate H.
  all: try (subst; match goal with x : bool |- context [IxReject ?x _] => destruct x end).
  all: split; [discriminate|]; cbn; intros w Iw; repeat (destruct Iw as [<-|Iw]; [repeat (first [left; reflexivity|right])|]); destruct Iw.
Qed.
