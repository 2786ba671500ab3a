(** Properties of the places reported for what a script says: C103. *)
From Verif Require Import Base Lib Lexer LexPos LexPosSpec LexPosProofs.
From Coq Require Import Lia.
Import ListNotations.
Local Open Scope string_scope.
Local Open Scope list_scope.

(** Reading a script gives tokens in the order of the script, each with the line and the
    position at which it is written, up to the end or to an error, which points at what is
    wrong. *)
Theorem C103_places : forall L max script is, (N.of_nat (length script) <= usize_max)%N ->
  reads L max (plex_start script) is -> in_order script 0 is.
Proof. intros L max script is H R. eapply reads_order; [exact H|exact R|]. apply start_inv. Qed.
Print Assumptions C103_places.

(** Every script is read to its end or to an error: keeping the places neither panics nor
    overflows. *)
Theorem C103_reads : forall L max script, (N.of_nat (length script) <= usize_max)%N ->
  exists is, reads L max (plex_start script) is.
Proof. intros L max script H. eapply (reads_all L max script H (S (length script)) 0); [auto with arith|apply start_inv]. Qed.
Print Assumptions C103_reads.

(** Keeping the places does not change what is read. *)
Theorem C103_same : forall L max script is, reads L max (plex_start script) is ->
  lexes L max (lex_start script) (map forget is).
Proof. intros L max script is R. apply (reads_lexes L max (plex_start script) is R). Qed.
Print Assumptions C103_same.

(** A token that has been looked at is the next one, at the same place. *)
Theorem C103_peek : forall L max q t line col q', plex_peek L max q = QTok t line col q' ->
  exists q'', plex_next L max q = QTok t line col q'' /\ plex_next L max q' = QTok t line col q''.
Proof. exact peek_next. Qed.
Print Assumptions C103_peek.

(** When the parser does not expect a token, the error names it as it is written at the place
    that the error gives; a tag that is not in the language without its colon, which is before
    that place.  Numbers are given as their value and strings without their quotes. *)
Definition word_or_sign (t : tok) : Prop := match t with TStr _ | TVar _ | TNumber _ => False | _ => True end.
Lemma order_in script lo is i : in_order script lo is -> In i is -> exists k, item_at script k i.
Proof. induction 1 as [|lo k j is A B C IH]; [intros []|]. intros [->|H]; eauto. Qed.
Theorem C103_found : forall L max script is t line col line' col' found, (N.of_nat (length script) <= usize_max)%N ->
  reads L max (plex_start script) is -> In (Token t line col) is -> word_or_sign t ->
  unexpected L (t, line, col) = (line', col', found) ->
  exists k, place script k line' col' /\
    (starts_word found (skipn k script) \/
     exists u, found = lit ":" ++ u /\ ends_with (lit ":") (firstn k script) /\ starts_word u (skipn k script)).
Proof.
  intros L max script is t line col line' col' found H R I W E. cbn [unexpected] in E. injection E as <- <- <-.
  destruct (order_in _ _ _ _ (C103_places L max script is H R) I) as (k & P & S). exists k. split; [exact P|].
  assert (SG : forall u, u <> [] -> lower_text u = u -> starts_with u (skipn k script) -> starts_word u (skipn k script))
    by (intros u A B C; split; [exact A|]; exists u; auto).
  destruct t; cbn [spells word_or_sign show_tok] in *; try contradiction;
    try (left; apply SG; [discriminate|reflexivity|exact S]); auto.
  destruct S as (r & A & B & u & (v & C) & D). left. split; [discriminate|]. exists (58%N :: u). split.
  - exists v. rewrite A, C. reflexivity.
  - cbn [lower_text map]. f_equal. exact D.
Qed.
Print Assumptions C103_found.

(** A line and a position name one byte of the script, and every byte has a place. *)
Lemma before_line {A} (x y : list A) : forall z1 z2, z1 ++ x = z2 ++ y -> length z1 < length z2 ->
  exists c w, x = c :: w /\ exists v, z2 = z1 ++ c :: v.
Proof.
  induction z1 as [|a z1 IH]; intros [|b z2] H E; cbn in *; try lia.
  - rewrite H. exists b, (z2 ++ y). split; [reflexivity|]. exists z2. reflexivity.
  - injection H as -> H. destruct (IH z2 H) as (c & w & C & v & D); [lia|]. exists c, w. split; [exact C|]. exists v. rewrite D. reflexivity.
Qed.
Lemma lines_apart z1 z2 x y : z1 ++ 10%N :: x = z2 ++ y -> length z1 < length z2 ->
  count_occ N.eq_dec z1 10%N < count_occ N.eq_dec z2 10%N.
Proof.
  intros H E. destruct (before_line _ _ _ _ H E) as (c & w & C & v & D). injection C as <- _.
  rewrite D, count_occ_app. cbn [count_occ]. destruct (N.eq_dec 10 10); [lia|congruence].
Qed.
Theorem C103_one_byte : forall script k k' line col,
  place script k line col -> place script k' line col -> k = k'.
Proof.
  intros script k k' line col A B.
  inversion A as [a c r A1 A2|z a c r A1 A2]; inversion B as [a' c' r' B1 B2|z' a' c' r' B1 B2]; subst k k' line col; try lia.
  assert (count_occ N.eq_dec z 10%N = count_occ N.eq_dec z' 10%N) by lia. assert (length a = length a') by lia.
  rewrite !app_length. cbn [length].
  rewrite <- !app_assoc in A1, B1. cbn [app] in A1, B1.
  destruct (Nat.lt_total (length z) (length z')) as [E|[E|E]]; [|lia|];
    eapply lines_apart in E; try (rewrite <- A1, B1; reflexivity); try (rewrite <- B1, A1; reflexivity); try congruence; lia.
Qed.
Print Assumptions C103_one_byte.
Theorem C103_every_byte : forall script k, k < length script -> exists line col, place script k line col.
Proof.
  intros script k H. destruct (nth_split script 0%N H) as (d & r & A & B). subst k. revert A. generalize (nth (length d) script 0%N).
  intros c A. assert (X : (~ In 10%N d) \/ exists z a, d = (z ++ [10%N]) ++ a /\ ~ In 10%N a).
  { clear. induction d as [|x d IH] using rev_ind; [left; intros []|]. destruct (N.eq_dec x 10) as [->|N].
    - right. exists d, []. rewrite app_nil_r. split; [reflexivity|intros []].
    - destruct IH as [IH|(z & a & -> & IH)]; [left|right; exists z, (a ++ [x]); split; [rewrite !app_assoc; reflexivity|]];
        intros I; apply in_app_or in I; destruct I as [I|[I|[]]]; auto. }
  destruct X as [X|(z & a & -> & X)].
  - do 2 eexists. exact (place_first script d c r A X).
  - do 2 eexists. apply place_later with c r; [rewrite A, <- !app_assoc; reflexivity|exact X].
Qed.
Print Assumptions C103_every_byte.

Lemma reads_end_at L max q q' line : plex_next L max q = QEof q' -> line = m_line (x_m q') -> reads L max q [End line].
Proof. intros A ->. eapply reads_end. exact A. Qed.

(** A script of four lines with comments, a tag, an unknown tag, a number and strings. *)
Definition lf : String.string := String.String (Ascii.ascii_of_nat 10) "".
Definition on_lines : String.string :=
  "Keep; # note" ++ lf ++ "if size :over 10K { /* a" ++ lf ++ "b */ fileinto :foo ""x"";" ++ lf ++ "} text:" ++ lf ++ "." ++ lf ++ " @".
Example C103_case : reads ascii_lib 100 (plex_start (lit on_lines))
  [Token (TIdent (lit "keep")) 1 0; Token TSemicolon 1 4;
   Token (TIdent (lit "if")) 2 1; Token (TIdent (lit "size")) 2 4; Token (TTag (lit "over")) 2 9; Token (TNumber 10240) 2 15;
   Token TCurlyOpen 2 19; Token (TIdent (lit "fileinto")) 3 6; Token (TUnknown (lit ":foo")) 3 16;
   Token (TStr (CText (lit "x"))) 3 20; Token TSemicolon 3 23; Token TCurlyClose 4 1; Token (TStr (CText [])) 4 7;
   Fault EInvalidChar 64 6 2].
Proof.
  repeat (eapply reads_token; [vm_compute; reflexivity|]). eapply reads_fault. vm_compute. reflexivity.
Qed.
Example C103_case_end : reads ascii_lib 100 (plex_start (lit ("keep;" ++ lf ++ "stop;" ++ lf)))
  [Token (TIdent (lit "keep")) 1 0; Token TSemicolon 1 4; Token (TIdent (lit "stop")) 2 1; Token TSemicolon 2 5; End 3].
Proof.
  repeat (eapply reads_token; [vm_compute; reflexivity|]). eapply reads_end_at; vm_compute; reflexivity.
Qed.
(** Positions are not counted alike on all lines: the first byte of the first line is at
    position 0, that of the second one at position 1. *)
Theorem C103_positions_refuted : exists script,
  place script 0 1 0 /\ (exists k, nth_error script k = Some 10%N /\ place script (k + 1) 2 1) /\
  reads ascii_lib 100 (plex_start script) [Token (TIdent (lit "keep")) 1 0; Token TSemicolon 1 4;
    Token (TIdent (lit "stop")) 2 1; Token TSemicolon 2 5; End 2].
Proof.
  exists (lit ("keep;" ++ lf ++ "stop;")). split; [|split].
  - apply (place_first _ [] 107%N (lit ("eep;" ++ lf ++ "stop;"))); [reflexivity|intros []].
  - exists 5. split; [reflexivity|]. apply (place_later _ (lit "keep;") [] 115%N (lit "top;")); [reflexivity|intros []].
  - repeat (eapply reads_token; [vm_compute; reflexivity|]). eapply reads_end_at; vm_compute; reflexivity.
Qed.
Print Assumptions C103_positions_refuted.
