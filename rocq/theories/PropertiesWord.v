(** A script without a word does not have its effect: C100. *)
From Coq Require Import Lia.
From Verif Require Import Base Lib Address Var Value SetVar Flags Comparator Message EditHeader
  Expr ExprTok Event Notify AddrTest Vacation Mime Sieve Run RunSpec Utf8 Lexer Scope StringTok HeaderVar Compile ParseArgs ParseBase Parse
  GrammarSpec AuditSpec WordSpec WordProofs PropertiesAudit PropertiesRun PropertiesParse PropertiesGrammar.
Import ListNotations.
Local Open Scope string_scope.
Local Open Scope list_scope.

(** The script is compiled from a text in which none of the words occurs, as a word of its own: not in
    a string or a comment. *)
Definition without (ws : list String.string) (x : sieve) : Prop :=
  exists K script ts, Parse.compile K script = Compiled x /\ tokens_from (C_L K) (C_string K) (lex_start script) ts /\
    forall w, In w ws -> ~ In (TIdent (lit w)) ts.

(** Whatever the host answers: if none of the scripts has one of the words for an event, this
    event is not handed out. *)
Theorem C100_events : forall E inputs m size c outs s' e,
  converse_run E inputs (initial m size c) = Some (outs, s') ->
  (forall x, script_in_play E inputs x -> without (effect_words e) x) ->
  In (Some (OEvent e)) outs -> exists flags id, e = EKeep flags id.
Proof.
  intros E inputs m size c outs s' e H W I.
  destruct (C99_events E inputs m size c outs s' e H I) as [Kp|(i & (x & Px & Ix) & Ca)]; [exact Kp|exfalso].
  destruct (W x Px) as (K & script & ts & C & T & N). destruct (causes_words i e Ca) as [Ne In_].
  destruct (compiled_words K script ts x i C T Ix Ne) as (w & A & B). exact (N w (In_ w A) B).
Qed.
Print Assumptions C100_events.

(** And without the words of the commands that edit it, the message stays as it is. *)
Theorem C100_message : forall E inputs m size c outs s',
  converse_run E inputs (initial m size c) = Some (outs, s') ->
  (forall x, script_in_play E inputs x -> without editing x) ->
  r_msg s' = {| ms_parts := m; ms_changed := false; ms_size := size |}.
Proof.
  intros E inputs m size c outs s' H W. apply (C99_message E inputs m size c outs s' H).
  intros i (x & Px & Ix) Ed. destruct (W x Px) as (K & script & ts & C & T & N).
  assert (Ne : words i <> [] /\ incl (words i) editing).
  { destruct i; try contradiction Ed; try (destruct t; try contradiction Ed); (split; [discriminate|]);
      intros w [<-|[]]; cbn; repeat (first [left; reflexivity|right]). }
  destruct Ne as [Ne In_]. destruct (compiled_words K script ts x i C T Ix Ne) as (w & A & B). exact (N w (In_ w A) B).
Qed.
Print Assumptions C100_message.

(** In particular, mail is sent only by scripts with "redirect", "vacation" or "notify". *)
Theorem C100_no_mail : forall E inputs m size c outs s',
  converse_run E inputs (initial m size c) = Some (outs, s') ->
  (forall x, script_in_play E inputs x -> without ["redirect"; "vacation"; "notify"] x) ->
  forall r opts id, ~ In (Some (OEvent (ESend r opts id))) outs.
Proof.
  intros E inputs m size c outs s' H W r opts id I.
  destruct (C100_events E inputs m size c outs s' (ESend r opts id) H) as (f & j & Q); [|exact I|discriminate Q].
  intros x Px. destruct (W x Px) as (K & script & ts & C & T & N). exists K, script, ts. split; [exact C|]. split; [exact T|].
  intros w Iw. apply N. destruct r; cbn in Iw |- *; tauto.
Qed.
Print Assumptions C100_no_mail.

(** A script that names the words in a string and a comment only *)
Definition harmless : String.string :=
  "require ""fileinto""; /* vacation */ if size :over 1K { fileinto ""redirect""; } else { discard; }".
Definition is_word (w : String.string) (t : tok) : bool := match t with TIdent x => teqb x (lit w) | _ => false end.
Lemma without_words ws s ts : match comp s with Compiled x => True | _ => False end ->
  tokens_from (C_L K1) (C_string K1) (lex_start (lit s)) ts -> forallb (fun w => negb (existsb (is_word w) ts)) ws = true ->
  match comp s with Compiled x => without ws x | _ => False end.
Proof.
  destruct (comp s) as [x| | |] eqn:C; try contradiction. intros _ T F. exists K1, (lit s), ts. split; [exact C|]. split; [exact T|].
  intros w Iw X. apply (proj1 (forallb_forall _ _) F) in Iw. apply Bool.negb_true_iff in Iw.
  assert (Y : existsb (is_word w) ts = true) by (apply existsb_exists; exists (TIdent (lit w)); split; [exact X|]; now apply teqb_spec).
  congruence.
Qed.
Example C100_case : match comp harmless with Compiled x => without (["redirect"; "vacation"; "notify"] ++ editing) x | _ => False end.
Proof.
  eapply without_words; [vm_compute; exact Logic.I| |].
  - repeat (eapply from_token; [vm_compute; reflexivity|]). eapply from_end. vm_compute. reflexivity.
  - vm_compute. reflexivity.
Qed.
Example C100_case_runs :
  match comp harmless with
  | Compiled x => option_map fst (converse_run E3 [InScript (SPersonal []) x; InTrue; InTrue] s0) = Some [ev EDiscard; None; None]
  | _ => False
  end.
Proof. vm_compute. reflexivity. Qed.
(** The same with the word as a command is not without it. *)
Example C100_sends :
  match comp "redirect ""a@b.org"";" with
  | Compiled x => In (Some (OEvent (ESend (RAddress (lit "a@b.org")) (DsnDefault, RetDefault, ByNone) 0)))
                    (match converse_run E3 [InScript (SPersonal []) x; InTrue] s0 with Some (outs, _) => outs | None => [] end)
  | _ => False
  end.
Proof. vm_compute. auto. Qed.
