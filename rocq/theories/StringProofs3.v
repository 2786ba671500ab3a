(** Strings made of texts and references. *)
From Verif Require Import Base Lib Var Value Utf8 Lexer Scope StringTok StringSpec StringProofs StringProofs2.

Fixpoint noenc (s : list N) : Prop := match s with [] => True | _ :: r => enc_at s = None /\ noenc r end.
Lemma noenc_regular bs : noenc bs -> regular bs.
Proof.
  intros H pre s ->. assert (noenc s) as G by (clear -H; induction pre; [exact H|apply IHpre, H]).
  unfold late_overflow, open_error. destruct s as [|x s]; [split; reflexivity|]. destruct G as [-> _]. split; reflexivity.
Qed.
Lemma noenc_decode : forall bs, noenc bs -> decode bs = Some bs.
Proof.
  induction bs as [|x s IH]; intro H; [reflexivity|]. destruct H as [H1 H2].
  rewrite decode_stays by (unfold stays, encoded; rewrite H1; exact Logic.I). rewrite (IH H2). reflexivity.
Qed.
Lemma enc_plain_at s : plain_at s -> enc_at s = None.
Proof. unfold plain_at, enc_at. intros ->. reflexivity. Qed.
Lemma noenc_no_open : forall w, no_open w -> noenc w.
Proof. induction w as [|x w IH]; [auto|]. intros [H1 H2]. split; [apply enc_plain_at, H1|apply IH, H2]. Qed.
Lemma noenc_plain : forall w s, Forall (fun x => x <> 36%N) w -> noenc s -> noenc (w ++ s).
Proof.
  induction w as [|x w IH]; intros s F H; [exact H|]. inversion F; subst. cbn [app noenc].
  split; [apply enc_plain_at, plain_at_1; assumption|apply IH; assumption].
Qed.
Lemma noenc_app : forall w x, no_open w -> noenc (36%N :: x) -> noenc (w ++ 36%N :: x).
Proof.
  induction w as [|a w IH]; intros x Hw Hx; [exact Hx|]. destruct Hw as [H1 H2]. cbn [app noenc]. split; [|apply IH; assumption].
  apply enc_plain_at. unfold plain_at. destruct w as [|b w]; [cbn; destruct (N.eqb a 36); reflexivity|].
  cbn [after_open app] in *. destruct (N.eqb a 36 && N.eqb b 123); [discriminate|reflexivity].
Qed.
Lemma is_name_span n s : is_name n -> name_span false (n ++ 125%N :: s) = (n, 125%N :: s).
Proof. intros [_ H]. apply (nspan_swap _ _ _ s H). Qed.
Lemma noenc_refs : forall segs last, Forall (fun p => no_open (utf8 (fst p)) /\ is_name (snd p)) segs -> no_open (utf8 last) ->
  noenc (with_refs segs last).
Proof.
  induction segs as [|[t n] segs IH]; intros last F Hl; [apply noenc_no_open, Hl|].
  inversion F as [|? ? [H1 H2] F']; subst. cbn [fst snd with_refs] in *.
  apply noenc_app; [exact H1|]. pose proof (is_name_span n (with_refs segs last) H2) as E. split.
  - match goal with |- ?x = None => destruct x as [[[uni body] r]|] eqn:A; [|reflexivity] end.
    exfalso. apply enc_at_spec in A as (kw & _ & B & _). change (name_span false (n ++ 125%N :: with_refs segs last) = (kw, 58%N :: body ++ r)) in B.
    rewrite E in B. discriminate.
  - change (noenc ((123%N :: n) ++ 125%N :: with_refs segs last)).
    apply (noenc_plain (123%N :: n)).
    + constructor; [discriminate|]. apply ok_plain, (nspan_ok _ _ _ _ E).
    + apply (noenc_plain [125%N]); [constructor; [discriminate|constructor]|]. apply IH; assumption.
Qed.
Lemma pieces_no_open : forall w, no_open w -> pieces w = map SByte w.
Proof.
  induction w as [|x w IH]; intro H; [reflexivity|]. destruct H as [H1 H2]. rewrite pieces_byte by exact H1. cbn. f_equal. apply IH, H2.
Qed.
Lemma lossy_utf8 t : Forall scalar t -> utf8_lossy (utf8 t) = t.
Proof. intro F. rewrite <- into_lossy. apply into_utf8, F. Qed.

Section Refs.
  Variables (L : rustlib) (resolve : list N -> bool -> bool -> vres) (c : vctx).
  Lemma render_concat : forall segs last, Forall (fun p => Forall scalar (fst p) /\ no_open (utf8 (fst p)) /\ is_name (snd p)) segs ->
    Forall scalar last -> no_open (utf8 last) ->
    render L resolve c [] (pieces (with_refs segs last)) = concat_refs (ref_text L resolve c) segs last.
  Proof.
    induction segs as [|[t n] segs IH]; intros last F S Hl; cbn [with_refs concat_refs].
    - rewrite pieces_no_open by exact Hl. rewrite <- (app_nil_r (map SByte (utf8 last))), render_bytes. cbn [app render]. rewrite lossy_utf8 by exact S. reflexivity.
    - inversion F as [|? ? (H0 & H1 & H2) F']; subst. cbn [fst snd] in *.
      rewrite <- (IH last F' S Hl). rewrite render_refs by (try apply H2; apply is_name_span, H2).
      rewrite pieces_no_open by exact H1. rewrite <- (app_nil_r (map SByte (utf8 t))), render_bytes. cbn [app render].
      rewrite lossy_utf8 by exact H0. reflexivity.
  Qed.
  Theorem refs_ok segs last : Forall (fun p => Forall scalar (fst p) /\ no_open (utf8 (fst p)) /\ is_name (snd p)) segs ->
    Forall scalar last -> no_open (utf8 last) ->
    option_map (fun v => v_text L (eval_value L c v)) (tokenize_string L resolve (with_refs segs last)) =
    concat_refs (ref_text L resolve c) segs last.
  Proof.
    intros F S Hl.
    assert (NE : noenc (with_refs segs last)).
    { apply noenc_refs; [|exact Hl]. eapply Forall_impl; [|exact F]. cbn. intros p (_ & H1 & H2). split; assumption. }
    rewrite tokenize_ok by (apply noenc_regular, NE). unfold string_meaning. rewrite noenc_decode by exact NE.
    apply render_concat; assumption.
  Qed.
End Refs.
