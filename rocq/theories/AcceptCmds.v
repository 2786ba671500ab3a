(** Proofs that valid scripts are accepted: the commands that neither begin nor end a block. *)
From Coq Require Import Lia.
From Verif Require Import Base Lib Address Var Value SetVar Flags Comparator Message EditHeader
  Expr ExprTok Event Notify AddrTest Vacation Sieve Utf8 Lexer Scope StringTok HeaderVar Compile ParseArgs ParseBase Parse CompileSpec GrammarSpec
  ArgSpec RefineSpec GrammarProofs ArgProofs1 ArgProofs5 RefineProofs5 AcceptSpec AcceptBase AcceptArgs AcceptTests AcceptTests2 AcceptTests3 AcceptTests4 AcceptTest
  AcceptActs AcceptActs2.
Import ListNotations.
Local Open Scope string_scope.
Local Open Scope list_scope.

Lemma texts_in_one K us a b : texts_in K us a -> texts_in K us b -> a = b.
Proof. intro H. revert b. induction H as [|us l H IH|c us l H IH]; intros b H'; inversion H'; subst; [reflexivity|auto|f_equal; auto]. Qed.
Lemma texts_are_one K us a b : texts_are K us a -> texts_are K us b -> a = b.
Proof.
  intros [(c & E & ->)|(vs & E & H & _)] [(c' & E' & ->)|(vs' & E' & H' & _)]; subst us.
  - injection E' as ->. reflexivity.
  - discriminate E'.
  - discriminate E'.
  - injection E' as E'. apply app_inj_tail in E'. destruct E' as [<- _]. eapply texts_in_one; eauto.
Qed.

(** What surrounds a command. *)
Definition enc (b : blk) (x : encl) : Prop :=
  match x with
  | EFor l => b_type b = BFor /\ b_label b = l
  | EWhile => b_type b = BWhile /\ b_label b = None
  | EPlain => b_type b <> BFor /\ b_type b <> BWhile /\ b_label b = None
  end.
Record ctx (s : pst) (D : list (list capability)) (e : list encl) (n : nat) (V : vst) : Prop := {
  x_caps : p_caps s = D;
  x_enc : Forall2 enc (blocks (p_c s)) (e ++ [EPlain]);
  x_inc : c_includes (p_c s) = n;
  x_v : p_v s = V }.
(** The kinds of the blocks. *)
Definition types (s : pst) : list btype := map b_type (blocks (p_c s)).
Lemma types_kept s s' : kept s s' -> types s' = types s.
Proof. intros (_ & B & C & _). unfold types, blocks. now rewrite B, C. Qed.
Lemma ctx_kept s s' D e n V W : ctx s D e n V -> kept s s' -> p_v s' = W -> ctx s' D e n W.
Proof. intros [] (A & B & C & _ & E) F. constructor; [congruence| |congruence|exact F]. unfold blocks in *. now rewrite B, C. Qed.

Section Cmds.
  Variable K : cenv.
  Variable FU : nat.
  Notation L := (C_L K).
  Notation at_ := (at_ K).
  Notation got := (got K).

  (** A command up to its semicolon *)
  Definition ends (s : pst) (ts : list tok) (D : list (list capability)) (e : list encl) (n : nat) (W : vst) (f : follow) (s' : pst) : Prop :=
    f = FEnd /\ at_ s' (TSemicolon :: ts) /\ types s' = types s /\ ctx s' D e n W.

  (** *** Actions *)

  Ltac finish_ctx E := split; [apply types_kept|eapply ctx_kept; [constructor; eassumption| |exact E]].
  Lemma simple_ok V D c (m : P instruction) us W e n s ts : acts K V D m us W -> allowed K D c -> ctx s D e n V -> p_params s = [] ->
    at_ s (us ++ TSemicolon :: ts) -> runs (simple K (capd c) m) s (ends s ts D e n W).
  Proof.
    intros AC AL X EP H. unfold simple. destruct X as [X1 X2 X3 X4].
    eapply runs_then; [eapply va_ok; [exact H|now left|now rewrite X1]|]. cbv beta. intros _ s1 (T1 & S1 & P1).
    eapply runs_then; [apply (AC s1 ts); [destruct S1; congruence| |exact (eq_trans P1 EP)|exact T1]|].
    { destruct S1 as [(-> & _) _]. exact X1. }
    cbv beta. intros i s2 (T2 & S2 & E2). apply runs_bind, runs_modify, runs_ret. split; [reflexivity|]. split; [exact T2|].
    finish_ctx E2; (eapply kept_trans; [apply stays_kept, S1|]; eapply kept_trans; [apply stays_kept, S2|]; repeat split).
  Qed.
  Ltac the x := match goal with UN : forall c', In _ action_needs -> c' = ?c |- _ =>
    assert (x = c) by (apply UN; cbn [action_needs In]; repeat (first [left; reflexivity|right])); subst c end.
  Ltac simply := match goal with G : _ -> ?X |- ?X => apply G; eexists; split; [reflexivity|] end.
  Lemma action_ok V D w c us W e n s ts : In (w, c) action_needs -> allowed K D c -> valid_action K D V w us W -> ctx s D e n V -> p_params s = [] ->
    at_ s (us ++ TSemicolon :: ts) -> runs (command K FU (lit w)) s (ends s ts D e n W).
  Proof.
    intros I AL VA X EP H.
    assert (G : (exists m, (command K FU (lit w) = simple K (capd c) m) /\ acts K V D m us W) -> runs (command K FU (lit w)) s (ends s ts D e n W)).
    { intros (m & -> & A). eapply simple_ok; eassumption. }
    assert (UN : forall c', In (w, c') action_needs -> c' = c).
    { intros c' I'. cbn [action_needs In] in I, I'.
      repeat match goal with H : _ \/ _ |- _ => destruct H as [H|H] | H : False |- _ => destruct H end; congruence. }
    destruct VA as [|us A O|l x T O|l x T O|w I'|l x T O|l x T O|l t v W T A|a b us O1 O2 O3|l n' v T O1 O2|l n' ks T M O KS|l t v x W T A O|l x T M O
      |w us I' O|w us I' O|w t v us W I' A O|t v us y W A E|us y E|l x T M O| |us xs W A O TA GA].
    - the (@None String.string). simply. apply accepts_acts, ok_keep'.
    - the (@None String.string). simply. apply accepts_acts. now apply ok_keep_flags'.
    - the (Some "fileinto"). simply. apply accepts_acts. now apply ok_fileinto'.
    - the (@None String.string). simply. apply accepts_acts. now apply ok_redirect'.
    - destruct I' as [<-|[<-|[]]]; the (@None String.string); simply; apply accepts_acts, ok_bare'.
    - the (Some "replace"). simply. apply accepts_acts. now apply ok_replace'.
    - the (Some "enclose"). simply. apply accepts_acts. now apply ok_enclose'.
    - the (Some "extracttext"). simply. apply accepts_acts. now apply (ok_extracttext' K FU V D l t v).
    - the (Some "convert"). simply. apply accepts_acts. now apply ok_convert'.
    - the (Some "editheader"). simply. apply accepts_acts. now apply ok_addheader'.
    - the (Some "editheader"). simply. apply accepts_acts. now apply ok_deleteheader'.
    - the (Some "variables"). simply. apply accepts_acts. now apply (ok_set' K FU V D l t v).
    - the (Some "enotify"). simply. apply accepts_acts. now apply ok_notify'.
    - destruct I' as [<-|[<-|[<-|[]]]]; [the (Some "reject")|the (Some "ereject")|the (Some "ihave")]; simply; apply accepts_acts; now apply ok_string'.
    - destruct I' as [<-|[<-|[<-|[]]]]; the (Some "imap4flags"); simply; now apply ok_flags'.
    - destruct I' as [<-|[<-|[<-|[]]]]; the (Some "imap4flags"); simply; now apply (ok_flags_in' K FU V D _ t v).
    - the (Some "vnd.stalwart.expressions"). simply. apply accepts_acts. now apply (ok_let' K V D t v us y).
    - the (Some "vnd.stalwart.expressions"). simply. apply accepts_acts. now apply (ok_eval' K V D us y).
    - the (Some "vacation"). clear G UN I. destruct X as [X1 X2 X3 X4].
      change (runs (va K 0 (capd (Some "vacation")) ;; p <- cmd_vacation K FU ;;
        modify (fun s => w_c (emit [IxTest (fst p); IxJz (length (c_code (p_c s)) + 3); snd p] (p_c s)) s) ;; ret FEnd) s (ends s ts D e n V)).
      eapply runs_then; [eapply va_ok; [exact H|now left|now rewrite X1]|]. cbv beta. intros _ s1 (T1 & S1 & P1).
      eapply runs_then; [apply (accepts_acts K V D _ _ _ (ok_vacation' K FU V D l x T M O) s1 ts); [destruct S1; congruence| |exact (eq_trans P1 EP)|exact T1]|].
      { destruct S1 as [(-> & _) _]. exact X1. }
      cbv beta. intros i s2 (T2 & S2 & E2). apply runs_bind, runs_modify, runs_ret. split; [reflexivity|]. split; [exact T2|].
      finish_ctx E2; (eapply kept_trans; [apply stays_kept, S1|]; eapply kept_trans; [apply stays_kept, S2|]; repeat split).
    - the (Some "include"). clear G UN I. destruct X as [X1 X2 X3 X4].
      change (runs (va K 0 (capd (Some "include")) ;; modify (fun s => w_c (do_return (p_c s)) s) ;; ret FEnd) s (ends s ts D e n V)).
      eapply runs_then; [eapply va_ok; [exact H|now left|now rewrite X1]|]. cbv beta. intros _ s1 (T1 & S1 & P1).
      apply runs_bind, runs_modify, runs_ret. split; [reflexivity|]. split; [exact T1|].
      assert (E1 : p_v s1 = V) by (destruct S1; congruence). finish_ctx E1; (eapply kept_trans; [apply stays_kept, S1|]; repeat split).
    - the (Some "include"). clear G UN I. destruct X as [X1 X2 X3 X4].
      change (runs (va K 0 (capd (Some "include")) ;; va K 0 (capd (Some "variables")) ;; l <- static_strings K FU ;; globals K l ;; ret FEnd) s (ends s ts D e n W)).
      eapply runs_then; [eapply va_ok; [exact H|now left|now rewrite X1]|]. cbv beta. intros _ s1 (T1 & S1 & P1).
      eapply runs_then; [eapply va_ok; [exact T1|now left|destruct S1 as [(-> & _) _]; now rewrite X1]|]. cbv beta. intros _ s2 (T2 & S2 & P2).
      eapply runs_then; [eapply static_strings_ok; [exact O|exact T2]|]. cbv beta. intros l s3 (TL & _ & G3).
      assert (l = xs) by (eapply texts_are_one; eauto). subst l. assert (S3 := same_trans _ _ _ (same_trans _ _ _ S1 S2) (proj1 (proj2 G3))).
      eapply runs_then; [eapply (globals_ok K xs V W GA s3); [destruct S3; congruence|apply G3]|]. cbv beta. intros u s4 (T4 & S4 & E4).
      apply runs_ret. split; [reflexivity|]. split; [exact T4|]. finish_ctx E4; (eapply kept_trans; [apply stays_kept, S3|apply stays_kept, S4]).
  Qed.
End Cmds.
