(** Proofs that valid scripts are accepted: tags, and the arguments after them. *)
From Coq Require Import Lia.
From Verif Require Import Base Lib Address Var Value SetVar Flags Comparator Message EditHeader
  Expr ExprTok Event Notify AddrTest Vacation Sieve Utf8 Lexer Scope StringTok HeaderVar Compile ParseArgs ParseBase Parse CompileSpec GrammarSpec
  ArgSpec RefineSpec GrammarProofs AcceptSpec AcceptBase.
Import ListNotations.
Local Open Scope string_scope.
Local Open Scope list_scope.

Lemma uses_snoc w l x us : uses w (l ++ [(x, us)]) <-> uses w l \/ x = w.
Proof. unfold uses. rewrite map_app, in_app_iff. cbn. intuition. Qed.

(** What the tags [l] have to do with the arguments read so far *)
Record J (l : list tagged) (a : args) : Prop := {
  j_any : a_any a = true -> uses "anychild" l;
  j_mime : uses "mime" l -> a_mime a = true;
  j_opts : a_opts a <> MvNone -> uses "type" l \/ uses "subtype" l \/ uses "contenttype" l \/ uses "param" l;
  j_regex : (exists p, a_m a = MRegex p) -> uses "regex" l;
  j_fcc : uses "fcc" l -> a_fcc a <> None;
  j_create : a_create a = true -> uses "create" l;
  j_flags : a_flags a <> [] -> uses "flags" l;
  j_special : a_special a <> None -> uses "specialuse" l;
  j_mbid : a_mbid a <> None -> uses "mailboxid" l;
  j_local : a_local a = true <-> uses "local" l;
  j_vals : a_vals a = None;
  j_name : a_name a = None;
  j_name2 : a_name2 a = None;
  j_date : a_date a = None;
  j_env : a_env a = None;
  j_var : a_var a = None }.
Lemma J_start : J [] args0.
Proof. constructor; cbn; try discriminate; try reflexivity; try congruence; try contradiction. 1: intros [p E]; discriminate. split; [discriminate|contradiction]. Qed.

Definition agree (a a' : args) : Prop :=
  a_any a' = a_any a /\ a_mime a' = a_mime a /\ a_opts a' = a_opts a /\ a_m a' = a_m a /\ a_fcc a' = a_fcc a /\ a_create a' = a_create a /\
  a_flags a' = a_flags a /\ a_special a' = a_special a /\ a_mbid a' = a_mbid a /\ a_local a' = a_local a /\ a_vals a' = a_vals a /\
  a_name a' = a_name a /\ a_name2 a' = a_name2 a /\ a_date a' = a_date a /\ a_env a' = a_env a /\ a_var a' = a_var a.
Lemma J_keep l a a' w us : J l a -> agree a a' -> w <> "mime" -> w <> "fcc" -> w <> "local" -> J (l ++ [(w, us)]) a'.
Proof.
  intros [] (E1 & E2 & E3 & E4 & E5 & E6 & E7 & E8 & E9 & E10 & E11 & E12 & E13 & E14 & E15 & E16) N1 N2 N3.
  constructor; rewrite ?E1, ?E2, ?E3, ?E4, ?E5, ?E6, ?E7, ?E8, ?E9, ?E10, ?E11, ?E12, ?E13, ?E14, ?E15, ?E16, ?uses_snoc; auto; try tauto.
Qed.
(** One of these fields changes *)
Ltac jset1 :=
  first [ assumption
        | solve [intros _; reflexivity]
        | solve [intros _; discriminate]
        | solve [intros _; right; reflexivity]
        | solve [let X := fresh in intro X; exfalso; apply X; reflexivity]
        | solve [intros [? ?]; discriminate]
        | solve [intros [?|?]; [auto|discriminate]]
        | solve [match goal with H : ?A -> _ |- ?A -> _ => let X := fresh in intro X; specialize (H X); clear - H; tauto end]
        | solve [intros _; clear; tauto]
        | solve [match goal with H : ?A <-> _ |- ?A <-> _ => split; [let X := fresh in intro X; left; apply H; exact X|intros [?|?]; [apply H; assumption|discriminate]] end]
        | solve [split; [intros; right; reflexivity|reflexivity]]
        | idtac ].
Ltac jset :=
  match goal with
  | H : J _ _ |- J _ _ =>
      destruct H as [JA JM JO JR JF JC JFL JS JMB JL JV JN JN2 JD JE JVA]; constructor; cbn [a_any a_mime a_opts a_m a_fcc a_create a_flags a_special a_mbid a_local a_vals a_name a_name2 a_date a_env a_var
        s_any s_mime s_opts s_m s_fcc s_create s_flags s_special s_mbid s_local];
      rewrite ?uses_snoc; jset1
  end.

Section Args.
  Variable K : cenv.
  Variable FU : nat.
  Variable V : vst.
  Variable D : list (list capability).
  Notation L := (C_L K).
  Notation at_ := (at_ K).
  Notation got := (got K).

  (** The slots in use after a tag *)
  Definition slots (n : nat) (s s' : pst) : Prop := forall x, In x (p_params s') -> x = n \/ In x (p_params s).
  Definition tag_run (w : String.string) (n : nat) (us ts : list tok) (l : list tagged) (h : P args) (s : pst) : Prop :=
    runs h s (fun a' s' => J (l ++ [(w, us)]) a' /\ at_ s' ts /\ same s s' /\ slots n s s').
  Definition handles (hs : list handler) (r : rule) : Prop :=
    let '(w, n, c, Q) := r in
    exists h, dispatch hs (lit w) = Some h /\
      forall a s us ts l, p_v s = V -> p_caps s = D -> Q us -> allowed K D c -> n = 0 \/ ~ In n (p_params s) ->
        at_ s (us ++ ts) -> J l a -> tag_run w n us ts l (h a) s.

  Lemma tags_run hs dflt rules : Forall (handles hs) rules ->
    forall l used a s ts l0 Q, tags_from K D rules used l -> (forall x, In x (p_params s) -> In x used) -> p_v s = V -> p_caps s = D ->
      at_ s (tags_text l ++ ts) -> J l0 a ->
      (forall fuel a' s', J (l0 ++ l) a' -> at_ s' ts -> same s s' -> runs (loop fuel (step_args K hs dflt) a') s' Q) ->
      forall fuel, runs (loop fuel (step_args K hs dflt) a) s Q.
  Proof.
    intros HS l used a s ts l0 Q T. revert a s l0. induction T as [used|used w n c R us l I A X N T IH]; intros a s l0 P EV EC H HJ F fuel.
    - rewrite app_nil_r in F. apply F; [exact HJ|exact H|apply same_refl].
    - destruct fuel as [|fuel]; [exact Logic.I|]. cbn [loop]. apply runs_bind. unfold step_args at 1.
      change (tags_text ((w, us) :: l)) with (TTag (lit w) :: us ++ tags_text l) in H. cbn [app] in H. rewrite <- app_assoc in H.
      eapply read_ok; [exact H|]. intros s1 G. cbv iota. rewrite Forall_forall in HS. destruct (HS _ I) as (h & EH & HH). rewrite EH.
      destruct G as (G1 & (G2 & G3) & G4). assert (EC1 : p_caps s1 = D) by (destruct G2 as [-> _]; exact EC).
      eapply runs_then; [eapply (HH a s1 us (tags_text l ++ ts) l0); [congruence|exact EC1|exact X|exact A| |exact G1|exact HJ]|].
      + destruct N as [N|N]; [now left|right]. rewrite G4. auto.
      + intros a' s2 (J2 & T2 & (S2 & S2') & P2). apply runs_ret.
        apply (IH a' s2 (l0 ++ [(w, us)])); [|congruence| |exact T2|exact J2|].
        * intros x Ix. destruct (P2 x Ix) as [->|Ix']; [now left|]. right. apply P. now rewrite <- G4.
        * destruct S2 as [-> _]. exact EC1.
        * intros fuel' a3 s3 J3 T3 S3. apply F; [now rewrite <- app_assoc in J3|exact T3|].
          eapply same_trans; [split; [exact G2|exact G3]|]. eapply same_trans; [split; [exact S2|exact S2']|exact S3].
  Qed.
  Lemma read_args_ok hs dflt rules l s ts Q : Forall (handles hs) rules -> tags_ok K D rules l -> p_params s = [] -> p_v s = V -> p_caps s = D ->
    at_ s (tags_text l ++ ts) ->
    (forall fuel a' s', J l a' -> at_ s' ts -> same s s' -> runs (loop fuel (step_args K hs dflt) a') s' Q) ->
    runs (read_args K FU hs dflt) s Q.
  Proof.
    intros HS T P EV EC H F. unfold read_args. eapply (tags_run _ _ _ HS _ _ _ _ _ []); eauto; [rewrite P; auto|apply J_start].
  Qed.
  Lemma step_pos hs dflt t ts a s Q : (forall w, t <> TTag w) -> at_ s (t :: ts) ->
    (forall s', got s ts s' -> runs (dflt t a) s' (fun r s'' => match r with
                                                                | inl a' => forall fuel, runs (loop fuel (step_args K hs dflt) a') s'' Q
                                                                | inr a' => Q a' s''
                                                                end)) ->
    forall fuel, runs (loop fuel (step_args K hs dflt) a) s Q.
  Proof.
    intros N H F fuel. destruct fuel as [|fuel]; [exact Logic.I|]. cbn [loop]. apply runs_bind. unfold step_args at 1.
    eapply read_ok; [exact H|]. intros s1 G. specialize (F _ G).
    assert (X : forall (Z : P (args + args)), Z = dflt t a -> runs Z s1 (fun r s' => runs match r with
      | inl a' => loop fuel (step_args K hs dflt) a' | inr b => ret b end s' Q)).
    { intros Z ->. eapply runs_weaken; [exact F|]. intros [a'|b] s' Y; [apply Y|exact Y]. }
    destruct t; try (apply X; reflexivity). now destruct (N w).
  Qed.

  (** *** Handlers *)

  Lemma handle_ok {A} (R : A -> Prop) w n c us ts l (m : P A) (f : A -> args) s :
    p_caps s = D -> allowed K D c -> n = 0 \/ ~ In n (p_params s) -> at_ s (us ++ ts) ->
    (forall s', at_ s' (us ++ ts) -> p_v s' = p_v s -> runs m s' (fun x s'' => R x /\ got s' ts s'')) ->
    (forall x, R x -> J (l ++ [(w, us)]) (f x)) ->
    tag_run w n us ts l (va K n (capd c) ;; x <- m ;; ret (f x)) s.
  Proof.
    intros EC AL N H M F. unfold tag_run. eapply runs_then; [eapply va_ok; [exact H|exact N|now rewrite EC]|].
    cbv beta. intros _ s1 (T1 & S1 & P1). eapply runs_then; [apply M; [exact T1|apply S1]|]. cbv beta. intros x s2 (X & G2 & S2 & P2).
    apply runs_ret. split; [auto|]. split; [exact G2|]. split; [eapply same_trans; eauto|].
    intros y. rewrite P2, P1. destruct (Nat.eqb n 0); [auto|]. intros [<-|Y]; auto.
  Qed.
  Lemma handle_flag w n c ts l (f : args) s :
    p_caps s = D -> allowed K D c -> n = 0 \/ ~ In n (p_params s) -> at_ s ts ->
    J (l ++ [(w, [])]) f -> tag_run w n [] ts l (va K n (capd c) ;; ret f) s.
  Proof.
    intros EC A N H F. unfold tag_run. eapply runs_then; [eapply va_ok; [exact H|exact N|now rewrite EC]|].
    cbv beta. intros _ s1 (T1 & S1 & P1). apply runs_ret. split; [exact F|]. split; [exact T1|]. split; [exact S1|].
    intros y. rewrite P1. destruct (Nat.eqb n 0); [auto|]. intros [<-|Y]; auto.
  Qed.

  (** *** Positional arguments *)

  Lemma list_head (Q : tok -> Prop) us : list_of Q us -> (forall t, Q t -> is_string t) -> exists t us', us = t :: us' /\ forall w, t <> TTag w.
  Proof.
    intros [(t & -> & X)|(vs & -> & S)] H; [exists t, []|eexists _, _]; (split; [reflexivity|]).
    - intros w ->. exact (H _ X).
    - discriminate.
  Qed.
  Lemma readable_string V' t : readable K V' t -> is_string t.
  Proof. destruct t; cbn; auto. Qed.
  Lemma string_ok_string V' good t : string_ok K V' good t -> is_string t.
  Proof. intros [R _]. eapply readable_string, R. Qed.
  Lemma const_string Q t : const K Q t -> is_string t.
  Proof. intros (c & -> & _). exact Logic.I. Qed.
  Lemma string_not_tag t w : is_string t -> t <> TTag w.
  Proof. intros H ->. exact H. Qed.

  Lemma more_strings good t us (f : list value -> args) s ts (Q : args + args -> pst -> Prop) :
    list_of (string_ok K (p_v s) good) (t :: us) -> at_ s (us ++ ts) ->
    (forall v s', strings_are K (p_v s) (t :: us) v -> Forall good v -> got s ts s' -> Q (inl (f v)) s') -> runs (more (strings_tok K FU t) f) s Q.
  Proof.
    intros O H F. unfold more. eapply runs_then; [eapply strings_tok_ok; eauto|]. cbv beta. intros v s' (A & B & C). apply runs_ret. auto.
  Qed.
  Lemma done_strings good t us (f : list value -> args) s ts (Q : args + args -> pst -> Prop) :
    list_of (string_ok K (p_v s) good) (t :: us) -> at_ s (us ++ ts) ->
    (forall v s', strings_are K (p_v s) (t :: us) v -> Forall good v -> got s ts s' -> Q (inr (f v)) s') -> runs (done (strings_tok K FU t) f) s Q.
  Proof.
    intros O H F. unfold done. eapply runs_then; [eapply strings_tok_ok; eauto|]. cbv beta. intros v s' (A & B & C). apply runs_ret. auto.
  Qed.
  Lemma more_string good t (f : value -> args) s ts (Q : args + args -> pst -> Prop) :
    string_ok K (p_v s) good t -> at_ s ts ->
    (forall v s', good v -> got s ts s' -> Q (inl (f v)) s') -> runs (more (string_tok K t) f) s Q.
  Proof.
    intros O H F. unfold more. eapply runs_then; [eapply string_ok_tok; eauto|]. cbv beta. intros v s' (A & B & C). apply runs_ret. auto.
  Qed.
  Lemma done_string good t (f : value -> args) s ts (Q : args + args -> pst -> Prop) :
    string_ok K (p_v s) good t -> at_ s ts ->
    (forall v s', good v -> got s ts s' -> Q (inr (f v)) s') -> runs (done (string_tok K t) f) s Q.
  Proof.
    intros O H F. unfold done. eapply runs_then; [eapply string_ok_tok; eauto|]. cbv beta. intros v s' (A & B & C). apply runs_ret. auto.
  Qed.
  Lemma checked {A} (m : P A) (b : A -> bool) s (R : A -> pst -> Prop) (Q : A -> pst -> Prop) :
    runs m s R -> (forall x s', R x s' -> b x = true /\ Q x s') -> runs (v <- m ;; check K (b v) ;; ret v) s Q.
  Proof. intros H X. eapply runs_then; [exact H|]. intros x s' Y. destruct (X _ _ Y) as [E Z]. apply runs_bind. apply check_ok; [exact E|]. exact Z. Qed.

  Lemma regexes_ok l : Forall (is_text (fun e => C_regex K e = true)) l -> exists r, regexes K l = Some r.
  Proof.
    induction 1 as [|v l H F (r & E)]; cbn [regexes]; [eauto|]. rewrite E. destruct v; cbn in H |- *; eauto. rewrite H. cbn. eauto.
  Qed.
  Lemma validate_ok m keys s (Q : list value -> pst -> Prop) :
    ((exists p, m = MRegex p) -> Forall (is_text (fun e => C_regex K e = true)) keys) -> (forall ks, Q ks s) -> runs (validate_match K m keys) s Q.
  Proof.
    intros H X. unfold validate_match. destruct m; try apply X. destruct (regexes_ok keys) as (r & ->); [apply H; eauto|]. apply X.
  Qed.
  Lemma header_fine v : is_text (fun x => hn_parse (C_M K) x <> None) v -> header_ok K v = true.
  Proof. unfold header_ok. destruct v; cbn; auto. match goal with |- context [hn_parse ?a ?b] => destruct (hn_parse a b) end; congruence. Qed.
  Lemma headers_fine vs : Forall (is_text (fun x => hn_parse (C_M K) x <> None)) vs -> forallb (header_ok K) vs = true.
  Proof. induction 1; cbn; [reflexivity|]. now rewrite header_fine, IHForall. Qed.
  Lemma mime_fine l a : J l a -> mime_first l -> mime_ok a = true.
  Proof.
    intros [] H. unfold mime_ok, mime_first in *. destruct (a_any a) eqn:E; [|now rewrite Bool.orb_true_r]. rewrite j_mime0; auto.
  Qed.
  Lemma fcc_fine l a : J l a -> fcc_first l -> fcc_ok a = true.
  Proof.
    intros [] H. unfold fcc_ok, fcc_first in *. destruct (a_fcc a) eqn:E; [reflexivity|].
    assert (N : ~ uses "fcc" l) by (intro U; now apply (j_fcc0 U)).
    destruct (a_create a); [exfalso; tauto|]. destruct (a_flags a); [|exfalso; apply N; apply H; right; left; apply j_flags0; discriminate].
    destruct (a_special a); [exfalso; apply N; apply H; right; right; left; apply j_special0; discriminate|].
    destruct (a_mbid a); [exfalso; apply N; apply H; right; right; right; apply j_mbid0; discriminate|]. reflexivity.
  Qed.
End Args.
