(** * Lemmas about places *)
From Verif Require Import Base Lib Utf8 Lexer LexerProofs2 LexPos LexPosSpec.
From Coq Require Import Lia ZifyBool.
Import ListNotations.
Local Open Scope string_scope.
Local Open Scope list_scope.

Definition tracks (d : list N) (m : marks) : Prop :=
  ((d = [] /\ m_pos m = usize_max) \/ (d <> [] /\ m_pos m = N.of_nat (length d - 1))) /\
  m_line m = N.of_nat (1 + count_occ N.eq_dec d 10%N) /\
  ((~ In 10%N d /\ m_start m = 0%N) \/
   (exists z a, d = (z ++ [10%N]) ++ a /\ ~ In 10%N a /\ m_start m = N.of_nat (length z))).

Definition marked (m m' : marks) : Prop := m_pos m = m_pos m' /\ m_line m = m_line m' /\ m_start m = m_start m'.
Lemma tracks_marked d m m' : marked m m' -> tracks d m -> tracks d m'.
Proof. unfold tracks. intros (A & B & C). rewrite A, B, C. auto. Qed.
Lemma marked_text m c : marked m (set_text m c). Proof. repeat split. Qed.
Lemma marked_word m c : marked m (set_word m c). Proof. repeat split. Qed.
Lemma marked_wpos m c : marked m (set_wpos m c). Proof. repeat split. Qed.

Lemma step_pos d m : tracks d m -> (N.of_nat (length d) < usize_max)%N -> m_pos (step m) = N.of_nat (length d).
Proof.
  intros ([[A B]|[A B]] & _) H; cbn [step m_pos]; rewrite B.
  - subst d. reflexivity.
  - destruct (N.eqb_spec (N.of_nat (length d - 1)) usize_max) as [E|E]; [lia|]. destruct d; [congruence|]. cbn [length]. lia.
Qed.
Lemma tracks_step d m c : tracks d m -> (N.of_nat (length d) < usize_max)%N -> c <> 10%N -> tracks (d ++ [c]) (step m).
Proof.
  intros T H C. pose proof (step_pos d m T H) as P. destruct T as (_ & B & D). split; [|split].
  - right. rewrite app_length. cbn [length]. split; [destruct d; discriminate|]. rewrite P. f_equal. lia.
  - rewrite count_occ_app. cbn [step m_line]. rewrite B. cbn [count_occ]. destruct (N.eq_dec c 10); [congruence|]. lia.
  - cbn [step m_start]. destruct D as [[D E]|(z & a & D & E & F)].
    + left. split; [|exact E]. intros I. apply in_app_or in I. destruct I as [I|[I|[]]]; congruence || auto.
    + right. exists z, (a ++ [c]). rewrite D, <- !app_assoc. split; [reflexivity|]. split; [|exact F].
      intros I. apply in_app_or in I. destruct I as [I|[I|[]]]; congruence || auto.
Qed.
Lemma tracks_line d m : tracks d m -> (N.of_nat (length d) < usize_max)%N -> tracks (d ++ [10%N]) (new_line (step m)).
Proof.
  intros T H. pose proof (step_pos d m T H) as P. destruct T as (_ & B & D). split; [|split].
  - right. rewrite app_length. cbn [length new_line m_pos]. split; [destruct d; discriminate|]. rewrite P. f_equal. lia.
  - rewrite count_occ_app. cbn [new_line step m_line]. rewrite B. cbn [count_occ]. destruct (N.eq_dec 10 10); [lia|congruence].
  - right. exists d, []. rewrite app_nil_r. cbn [new_line m_start]. rewrite P. auto.
Qed.
Lemma column_here script d m c r : script = d ++ c :: r -> tracks d m -> (N.of_nat (length d) < usize_max)%N ->
  exists col, column (step m) = Some col /\ place script (length d) (m_line (step m)) col.
Proof.
  intros S T H. pose proof (step_pos d m T H) as P. destruct T as (_ & B & D). unfold column. rewrite P.
  cbn [step m_line m_start]. rewrite B. destruct D as [[D E]|(z & a & D & E & F)].
  - rewrite E. exists (N.of_nat (length d)). split.
    + destruct (N.leb_spec 0 (N.of_nat (length d))); [|lia]. f_equal. lia.
    + rewrite (proj1 (count_occ_not_In N.eq_dec d 10%N) D). exact (place_first script d c r S D).
  - rewrite F. exists (N.of_nat (1 + length a)). split.
    + rewrite D, !app_length. cbn [length].
      destruct (N.leb_spec (N.of_nat (length z)) (N.of_nat (length z + 1 + length a))); [|lia]. f_equal. lia.
    + assert (Q : place script (length ((z ++ [10%N]) ++ a)) (N.of_nat (2 + count_occ N.eq_dec z 10%N)) (N.of_nat (1 + length a))).
      { apply place_later with c r; [|exact E]. rewrite S, D, <- !app_assoc. reflexivity. }
      rewrite D in *. replace (1 + count_occ N.eq_dec ((z ++ [10%N]) ++ a) 10%N) with (2 + count_occ N.eq_dec z 10%N); [exact Q|].
      rewrite !count_occ_app, (proj1 (count_occ_not_In N.eq_dec a 10%N) E). cbn [count_occ].
      destruct (N.eq_dec 10 10); [lia|congruence].
Qed.
Lemma column_line m : column (new_line m) = Some 0%N.
Proof. unfold column. cbn [new_line m_start m_pos]. rewrite N.leb_refl, N.sub_diag. reflexivity. Qed.

Lemma split_same {A} (a x b y : list A) : a ++ x = b ++ y -> length a = length b -> a = b.
Proof.
  revert b. induction a as [|c a IH]; intros [|e b] H E; cbn in *; try discriminate; [reflexivity|].
  injection H as -> H. f_equal. apply IH; [exact H|lia].
Qed.

(** The place before one that follows a colon. *)
Lemma place_before script d c after line col : script = (d ++ [c]) ++ after -> c <> 10%N ->
  place script (length (d ++ [c])) line col ->
  (1 <= col)%N /\ place script (length d) line (col - 1)%N.
Proof.
  intros S C P. rewrite app_length in P. cbn [length] in P. inversion P as [a x r A B D|z a x r A B D].
  - assert (a = d ++ [c]) as ->.
    { apply (split_same _ (x :: r) _ after); [congruence|]. rewrite app_length. exact D. }
    rewrite app_length. cbn [length]. split; [lia|]. replace (N.of_nat (length d + 1) - 1)%N with (N.of_nat (length d)) by lia.
    apply place_first with c after; [rewrite S, <- app_assoc; reflexivity|]. intros I. apply B, in_or_app. auto.
  - assert ((z ++ [10%N]) ++ a = d ++ [c]) as E.
    { apply (split_same _ (x :: r) _ after); [rewrite <- app_assoc; congruence|]. rewrite D, app_length. reflexivity. }
    destruct a as [|y a _] using rev_ind.
    + exfalso. rewrite app_nil_r in E. apply app_inj_tail in E. destruct E as [_ E]. congruence.
    + rewrite app_assoc in E. apply app_inj_tail in E. destruct E as [E1 E2].
      subst d. split; [lia|]. rewrite !app_length in *. cbn [length] in *.
      replace (N.of_nat (1 + (length a + 1)) - 1)%N with (N.of_nat (1 + length a)) by lia.
      replace (length z + 1 + length a) with (length ((z ++ [10%N]) ++ a)) by (rewrite !app_length; reflexivity).
      apply place_later with c after; [rewrite S, <- !app_assoc; reflexivity|]. intros I. apply B, in_or_app. auto.
Qed.

Lemma word_shape b tag t : asciib b -> word_token b tag = Some t ->
  (t = TIdent b /\ tag = false) \/ (t = TTag b /\ tag = true) \/
  ((exists n, t = TNumber n) /\ is_digit_ascii (hd 0%N b) = true) \/
  (t = TUnknown (if tag then 58%N :: b else b)).
Proof.
  intros A. unfold word_token. rewrite (ascii_strict b A). destruct (is_word b).
  - destruct tag; intros H; injection H as <-; auto.
  - destruct (is_digit_ascii (hd 0%N b)).
    + destruct (parse_usize _); intros H; injection H as <-; [right; right; left; eauto|destruct tag; auto].
    + intros H; injection H as <-. destruct tag; auto.
Qed.
Lemma wordish_char c : word_byte c = true -> (c < 128)%N /\ c <> 10%N.
Proof. unfold word_byte, is_lower_ascii, is_digit_ascii, between. lia. Qed.
Lemma upper_char c : is_upper_ascii c = true -> (lower_ascii c < 128)%N /\ c <> 10%N.
Proof. intros H. unfold lower_ascii. rewrite H. unfold is_upper_ascii, between in H. lia. Qed.
Lemma lower_digit c : is_digit_ascii (lower_ascii c) = true -> is_digit_ascii c = true.
Proof.
  unfold lower_ascii. destruct (is_upper_ascii c) eqn:E; [|auto].
  unfold is_upper_ascii, is_digit_ascii, between in *. lia.
Qed.

Section Places.
  Variable L : rustlib.
  Variable M : nat.
  Variable script : list N.
  Hypothesis short : (N.of_nat (length script) <= usize_max)%N.

  Definition here (lo : nat) (d : list N) (line col : N) (Q : list N -> list N -> Prop) : Prop :=
    exists k, lo <= k /\ k < length d /\ place script k line col /\ Q (firstn k script) (skipn k script).
  Definition pending (lo : nat) (d i b : list N) (tag : bool) (m : marks) : Prop :=
    asciib b /\
    match b with
    | [] => if tag then lo + 1 <= length d /\ ends_with [58%N] d /\ head_alpha i = true else lo <= length d
    | _ => exists d0 u, d = d0 ++ u /\ lower_text u = b /\ place script (length d0) (m_wline m) (m_wpos m) /\
             if tag then lo + 1 <= length d0 /\ ends_with [58%N] d0 else lo <= length d0
    end.
  Definition inside (lo : nat) (d i b : list N) (tag : bool) (s : lstate) (m : marks) : Prop :=
    match s with
    | SNone => pending lo d i b tag m
    | SHash => b = [] /\ tag = false /\ lo <= length d
    | SBracket => b = [] /\ tag = false /\
        here lo d (m_tline m) (m_tpos m) (fun x y => ends_with (lit "/") x /\ starts_with (lit "*") y)
    | SQuoted _ => tag = false /\ here lo d (m_tline m) (m_tpos m) (fun _ y => quoted_here y)
    | SSkip => here lo d (m_tline m) (m_tpos m) multiline_here
    | SMulti _ => tag = false /\ here lo d (m_tline m) (m_tpos m) multiline_here
    end.
  Definition inv (lo : nat) (q : plx) : Prop :=
    exists d, script = d ++ x_in q /\ tracks d (x_m q) /\
      match x_next q with
      | [] => inside lo d (x_in q) (x_buf q) (x_tag q) (x_state q) (x_m q)
      | [(t, line, col)] => x_buf q = [] /\ x_tag q = false /\ x_state q = SNone /\
          here lo d line col (fun x y => spells x t y)
      | _ => False
      end.
  Definition fine (lo : nat) (r : qres) : Prop :=
    match r with
    | QEof q => lo <= length script /\ m_line (x_m q) = N.of_nat (1 + count_occ N.eq_dec script 10%N)
    | QTok t line col q => exists k, lo <= k /\ item_at script k (Token t line col) /\ inv (k + 1) q
    | QErr e c line col q => exists k, lo <= k /\ item_at script k (Fault e c line col)
    | QPanic | QOverflow => False
    end.

  Lemma here_more lo d x line col Q : here lo d line col Q -> here lo (d ++ x) line col Q.
  Proof. intros (k & A & B & C). exists k. rewrite app_length. split; [exact A|]. split; [lia|exact C]. Qed.
  Lemma here_lo lo d line col Q : here lo d line col Q -> lo <= length d.
  Proof. intros (k & A & B & C). lia. Qed.
  Lemma room d c r : script = d ++ c :: r -> (N.of_nat (length d) < usize_max)%N.
  Proof. intros H. assert (E := f_equal (@length N) H). rewrite app_length in E. cbn [length] in E. lia. Qed.
  Lemma split_at d r : script = d ++ r -> firstn (length d) script = d /\ skipn (length d) script = r.
  Proof.
    intros H. rewrite H. split.
    - rewrite firstn_app, firstn_all, Nat.sub_diag. cbn [firstn]. apply app_nil_r.
    - rewrite skipn_app, skipn_all, Nat.sub_diag. reflexivity.
  Qed.
  Lemma snoc d c r : script = d ++ c :: r -> script = (d ++ [c]) ++ r.
  Proof. intros H. rewrite <- app_assoc. exact H. Qed.
  Lemma forward d m c r : script = d ++ c :: r -> tracks d m -> c <> 10%N -> tracks (d ++ [c]) (step m).
  Proof. intros A B C. apply tracks_step; [exact B|eapply room, A|exact C]. Qed.
  Lemma forward_line d m r : script = d ++ 10%N :: r -> tracks d m -> tracks (d ++ [10%N]) (new_line (step m)).
  Proof. intros A B. apply tracks_line; [exact B|eapply room, A]. Qed.
  Lemma here_now d m c r (Q : list N -> list N -> Prop) lo : script = d ++ c :: r -> tracks d m -> lo <= length d -> Q d (c :: r) ->
    exists col, column (step m) = Some col /\ here lo (d ++ [c]) (m_line (step m)) col Q.
  Proof.
    intros A B C D. destruct (column_here script d m c r A B (room _ _ _ A)) as (col & E & F).
    exists col. split; [exact E|]. exists (length d). destruct (split_at _ _ A) as [G H]. rewrite G, H, app_length. cbn. 
    repeat split; auto; lia.
  Qed.

  (** A pending word is a token at its place. *)
  Lemma flushed lo d i c b tag m (q : marks -> plx) k : script = d ++ c :: i -> pending lo d (c :: i) b tag m -> is_alpha_ascii c = false ->
    (forall m', marked m m' -> m_wline m' = m_wline m -> m_tline m' = m_tline m -> m_tpos m' = m_tpos m -> inv (length d) (q m')) ->
    (forall m', lo <= length d -> b = [] -> tag = false -> m' = m -> fine lo k) -> fine lo (pflush b tag m q k).
  Proof.
    intros S (A & B) C D E. unfold pflush. destruct b as [|x b].
    - destruct tag; [cbn in B; destruct B as (_ & _ & B); congruence|]. eapply E; eauto.
    - set (b' := x :: b) in *. destruct B as (d0 & u & F & G & P & B).
      assert (U : u <> []) by (intros ->; discriminate).
      assert (W : forall w lo', lo' <= length d -> inv (length d) w -> inv lo' w).
      { intros w lo' O (z & Z1 & Z2 & Z3). exists z. split; [exact Z1|]. split; [exact Z2|].
        assert (HH : forall line col Q, here (length d) z line col Q -> here lo' z line col Q)
          by (intros line col Q (k0 & K1 & K2); exists k0; split; [lia|exact K2]).
        destruct (x_next w) as [|((t0 & l0) & c0) [|]]; [|destruct Z3 as (? & ? & ? & ?); auto|exact Z3].
        destruct (x_state w); cbn [inside] in *.
        - destruct Z3 as [Z3 Z4]. split; [exact Z3|]. destruct (x_buf w).
          + destruct (x_tag w); [destruct Z4; split; [lia|auto]|lia].
          + destruct Z4 as (e & v & V1 & V2 & V3 & V4). exists e, v. repeat (split; [assumption|]).
            destruct (x_tag w); [destruct V4; split; [lia|auto]|lia].
        - destruct Z3 as (? & ? & ?). auto.
        - destruct Z3 as (? & ? & ?). repeat split; auto; lia.
        - destruct Z3 as (? & ?). auto.
        - auto.
        - destruct Z3 as (? & ?). auto. }
      assert (LD : length d = length d0 + length u) by (rewrite F; apply app_length).
      assert (LU : 1 <= length u) by (destruct u; [congruence|cbn; lia]).
      assert (SU : script = d0 ++ (u ++ c :: i)) by (rewrite S, F, <- app_assoc; reflexivity).
      destruct (split_at _ _ SU) as [G1 G2].
      assert (ST : starts_word b' (u ++ c :: i)).
      { split; [discriminate|]. exists u. split; [exists (c :: i); reflexivity|exact G]. }
      destruct (word_token b' tag) as [t|] eqn:T; [|exact (word_token_ascii _ _ A T)].
      destruct (word_shape _ _ _ A T) as [[-> ->]|[[-> ->]|[[(n & ->) N]| -> ]]].
      + exists (length d0). split; [exact B|]. split; [|apply W; [lia|apply D; auto; repeat split]].
        cbn [item_at]. rewrite G1, G2. split; [exact P|exact ST].
      + destruct B as (B & (e & B1)). change [58%N] with ([58%N]) in B1. subst d0.
        assert (SV : script = (e ++ [58%N]) ++ (u ++ c :: i)) by exact SU.
        destruct (place_before script e 58%N (u ++ c :: i) _ _ SV ltac:(discriminate) P) as (P1 & P2).
        destruct (N.leb_spec 1 (m_wpos m)); [|lia]. rewrite app_length in B. cbn [length] in B.
        exists (length e). split; [lia|]. split.
        * assert (SE : script = e ++ 58%N :: u ++ c :: i) by (rewrite SV, <- app_assoc; reflexivity).
          destruct (split_at _ _ SE) as [H1 H2]. cbn [item_at]. rewrite H1, H2. split; [exact P2|].
          exists (u ++ c :: i). split; [reflexivity|exact ST].
        * apply W; [rewrite LD, app_length; cbn; lia|]. apply D; auto; repeat split.
      + assert (LO : lo <= length d0) by (destruct tag; [destruct B; lia|exact B]).
        exists (length d0). split; [exact LO|]. split; [|apply W; [lia|apply D; auto; repeat split]].
        cbn [item_at]. rewrite G1, G2. split; [exact P|]. destruct u as [|v u]; [congruence|]. exists v.
        split; [exists (u ++ c :: i); reflexivity|]. rewrite <- G in N. apply lower_digit. exact N.
      + assert (LO : lo <= length d0) by (destruct tag; [destruct B; lia|exact B]).
        exists (length d0). split; [exact LO|]. split; [|apply W; [lia|apply D; auto; repeat split]].
        cbn [item_at]. rewrite G1, G2. split; [exact P|]. destruct tag; [|left; exact ST].
        right. exists b'. split; [reflexivity|]. split; [exact (proj2 B)|exact ST].
  Qed.

  Lemma string_fine lo d r b c t m : script = d ++ r -> tracks d m ->
    here lo d (m_tline m) (m_tpos m) (fun x y => quoted_here y \/ multiline_here x y) ->
    fine lo (pget_string L M r b false c t m).
  Proof.
    intros A B (k & C & D & E & F). unfold pget_string. destruct (Nat.ltb (length b) M).
    - exists k. split; [exact C|]. split.
      + split; [exact E|]. unfold string_token. destruct (st_var t); exact F.
      + exists d. split; [exact A|]. split; [exact B|]. cbn [x_next pmk inside x_state x_buf x_tag]. split; [constructor|]. lia.
    - exists k. split; [exact C|]. split; [exact E|exact F].
  Qed.
  Definition texts (m m' : marks) : Prop := m_tline m = m_tline m' /\ m_tpos m = m_tpos m'.
  Lemma push_fine lo b m k col : column m = Some col ->
    (forall m', marked m m' -> texts m m' -> fine lo (k m')) -> fine lo (push b m k).
  Proof.
    intros A B. unfold push. destruct b; [rewrite A|]; apply B; repeat split.
  Qed.
  Lemma invalid_fine lo d m c r q : script = d ++ c :: r -> tracks d m -> lo <= length d -> fine lo (invalid c (step m) q).
  Proof.
    intros A B C. unfold invalid. destruct (column_here script d m c r A B (room _ _ _ A)) as (col & E & F). rewrite E.
    exists (length d). split; [exact C|]. split; [exact F|]. destruct (split_at _ _ A) as [G H]. rewrite H. exists r. reflexivity.
  Qed.
  Lemma pending_lo lo d i b tag m : pending lo d i b tag m -> lo <= length d.
  Proof.
    intros (_ & A). destruct b; [destruct tag; [destruct A; lia|exact A]|].
    destruct A as (d0 & u & -> & _ & _ & A). rewrite app_length. destruct tag; [destruct A|]; lia.
  Qed.
  Lemma pending_marks lo d i b tag m m' : m_wline m = m_wline m' -> m_wpos m = m_wpos m' ->
    pending lo d i b tag m -> pending lo d i b tag m'.
  Proof. intros A B. unfold pending. rewrite A, B. auto. Qed.
  Lemma punct_fine lo d i c b tag p m : script = d ++ c :: i -> tracks d m -> pending lo d (c :: i) b tag m ->
    is_alpha_ascii c = false -> c <> 10%N -> (forall x, spells x p (c :: i)) -> fine lo (ppunct i b tag c p (step m)).
  Proof.
    intros A B C D E F. unfold ppunct. pose proof (pending_lo _ _ _ _ _ _ C) as O.
    destruct (column_here script d m c i A B (room _ _ _ A)) as (col & G & H). rewrite G.
    pose proof (forward _ _ _ _ A B E) as T. destruct (split_at _ _ A) as [S1 S2].
    eapply flushed; [exact A| |exact D| |].
    - eapply pending_marks; [| |exact C]; reflexivity.
    - intros m' MM _ _ _. exists (d ++ [c]). split; [apply snoc, A|]. split; [eapply tracks_marked; [exact MM|exact T]|].
      cbn [x_next pmk x_buf x_tag x_state]. repeat (split; [reflexivity|]). exists (length d).
      rewrite app_length. cbn [length]. split; [lia|]. split; [lia|]. destruct MM as (_ & M2 & _). rewrite <- M2.
      split; [exact H|]. rewrite S1, S2. apply F.
    - intros m' _ Eb Et _. exists (length d). split; [exact O|]. split.
      + split; [exact H|]. rewrite S1, S2. apply F.
      + exists (d ++ [c]). split; [apply snoc, A|]. split; [exact T|]. cbn [x_next pmk x_buf x_tag x_state inside].
        subst tag. split; [constructor|]. rewrite app_length. cbn. lia.
  Qed.
  (** One more byte of a word. *)
  Lemma word_more lo d c i b tag m k : script = d ++ c :: i -> tracks d m -> pending lo d (c :: i) b tag m ->
    (lower_ascii c < 128)%N -> c <> 10%N ->
    (forall m', tracks (d ++ [c]) m' -> pending lo (d ++ [c]) i (b ++ [lower_ascii c]) tag m' -> fine lo (k m')) ->
    fine lo (push b (step m) k).
  Proof.
    intros A B (C1 & C2) D E F. pose proof (forward _ _ _ _ A B E) as T.
    assert (AA : asciib (b ++ [lower_ascii c])) by (apply Forall_app; split; [exact C1|repeat constructor; exact D]).
    destruct (column_here script d m c i A B (room _ _ _ A)) as (col & G & H). unfold push. destruct b as [|x b].
    - rewrite G. apply F; [eapply tracks_marked; [apply marked_word|exact T]|]. split; [exact AA|]. cbn [app].
      exists d, [c]. split; [reflexivity|]. split; [reflexivity|]. split; [exact H|].
      destruct tag; [destruct C2 as (X & Y & _); auto|exact C2].
    - apply F; [exact T|]. split; [exact AA|]. cbn [app]. destruct C2 as (d0 & u & -> & U & P & Q).
      exists d0, (u ++ [c]). rewrite <- app_assoc. split; [reflexivity|]. split; [|split; [exact P|exact Q]].
      etransitivity; [apply map_app|]. change (x :: b ++ [lower_ascii c]) with ((x :: b) ++ [lower_ascii c]). f_equal. exact U.
  Qed.

  Lemma here_imp lo d line col (Q R : list N -> list N -> Prop) : (forall x y, Q x y -> R x y) ->
    here lo d line col Q -> here lo d line col R.
  Proof. intros A (k & B & C & D & E). exists k. auto. Qed.

  Lemma go_fine : forall n i b tag last s m d lo, length i <= n -> script = d ++ i -> tracks d m ->
    inside lo d i b tag s m -> fine lo (plex_go L M i b tag last s m).
  Proof.
    induction n as [|n IH]; intros i b tag last s m d lo Hn S T H.
    1: destruct i; [|cbn in Hn; lia].
    2: destruct i as [|c r].
    1,2: rewrite app_nil_r in S; cbn [plex_go]; destruct s; cbn [inside] in H; cbn [fine];
      [split; [rewrite S; eapply pending_lo; exact H|cbn [x_m pmk]; rewrite S; exact (proj1 (proj2 T))]
      |destruct H as (_ & _ & k & A & B & C & D); exists k; split; [exact A|split; [exact C|exact D]]
      |destruct H as (_ & _ & H); split; [rewrite S; exact H|cbn [x_m pmk]; rewrite S; exact (proj1 (proj2 T))]
      |destruct H as (_ & k & A & B & C & D); exists k; split; [exact A|split; [exact C|exact D]]
      |destruct H as (k & A & B & C & D); exists k; split; [exact A|split; [exact C|exact D]]
      |destruct H as (_ & k & A & B & C & D); exists k; split; [exact A|split; [exact C|exact D]]].
    cbn [length] in Hn. pose proof (snoc _ _ _ S) as S'.
    assert (LS : length (d ++ [c]) = length d + 1) by (rewrite app_length; reflexivity).
    cbn [plex_go]. cbv zeta. destruct s as [| | |t| |t].
    - (* outside *)
      cbn [inside] in H. pose proof (pending_lo _ _ _ _ _ _ H) as LO.
      destruct (word_byte c) eqn:W.
      { destruct (wordish_char c W) as (W1 & W2). pose proof (lower_word c W) as W3.
        apply (word_more lo d c r b tag m _ S T H); [rewrite W3; exact W1|exact W2|].
        intros m' A B. rewrite W3 in B. apply IH with (d ++ [c]); auto; lia. }
      destruct (is_upper_ascii c) eqn:U.
      { destruct (upper_char c U) as (W1 & W2).
        apply (word_more lo d c r b tag m _ S T H W1 W2). intros m' A B. apply IH with (d ++ [c]); auto; lia. }
      assert (NA : is_alpha_ascii c = false).
      { unfold is_alpha_ascii. rewrite U. unfold word_byte in W. destruct (is_lower_ascii c); [discriminate|reflexivity]. }
      assert (TG : b = [] -> tag = false).
      { intros ->. destruct H as (_ & H). destruct tag; [|reflexivity]. destruct H as (_ & _ & H). cbn in H. congruence. }
      destruct (N.eqb_spec c 58) as [->|N58].
      { pose proof (forward _ _ _ _ S T ltac:(discriminate)) as T'.
        destruct (is_nil b && head_alpha r) eqn:E.
        - destruct b; [|discriminate]. apply IH with (d ++ [58%N]); auto; [lia|]. cbn [inside]. split; [constructor|].
          split; [lia|]. split; [exists d; reflexivity|exact E].
        - destruct (teqb_ic b (lit "text")) eqn:X.
          + destruct b as [|x b]; [discriminate|]. destruct H as (_ & d0 & u & D & G & _).
            assert (MH : multiline_here d (58%N :: r)).
            { split; [exists r; reflexivity|]. exists u. split; [exists d0; exact D|].
              apply teqb_ic_spec in X. change (lower_text (lit "text")) with (lit "text") in X.
              rewrite <- X, <- G. symmetry. unfold lower_text. rewrite map_map. apply map_ext. intros z.
              unfold lower_ascii. destruct (is_upper_ascii z) eqn:ZZ; [|rewrite ?ZZ; reflexivity].
              destruct (is_upper_ascii (z + 32)%N) eqn:ZY; [|reflexivity]. unfold is_upper_ascii, between in *. lia. }
            destruct (here_now d m 58%N r multiline_here lo S T LO MH) as (col & C1 & C2).
            unfold text_start. rewrite C1. apply IH with (d ++ [58%N]); auto; lia.
          + apply punct_fine with d; auto; [discriminate|]. intros z. exists r. reflexivity. }
      destruct (N.eqb_spec c 34) as [->|N34].
      { destruct (here_now d m 34%N r (fun _ y => quoted_here y) (length d) S T ltac:(lia) ltac:(exists r; reflexivity)) as (col & C1 & C2).
        pose proof (forward _ _ _ _ S T ltac:(discriminate)) as T'.
        unfold text_start. rewrite C1. eapply flushed; [exact S| |exact NA| |].
        - eapply pending_marks; [| |exact H]; reflexivity.
        - intros m' MM _ X1 X2. exists (d ++ [34%N]). split; [exact S'|].
          split; [eapply tracks_marked; [exact MM|eapply tracks_marked; [apply marked_text|exact T']]|].
          cbn [x_next pmk inside x_state x_tag x_m]. split; [reflexivity|]. rewrite X1, X2. exact C2.
        - intros _ _ -> -> _. apply IH with (d ++ [34%N]); [lia|exact S'|eapply tracks_marked; [apply marked_text|exact T']|].
          cbn [inside]. split; [reflexivity|]. destruct C2 as (k & K1 & K2). exists k. split; [lia|exact K2]. }
      destruct (N.eqb_spec c 47) as [->|N47].
      { pose proof (forward _ _ _ _ S T ltac:(discriminate)) as T'. destruct r as [|c1 r].
        - eapply invalid_fine; eauto.
        - destruct (N.eqb_spec c1 42) as [->|N42].
          + destruct (here_now (d ++ [47%N]) (step m) 42%N r (fun x y => ends_with (lit "/") x /\ starts_with (lit "*") y) (length d)
              S' T' ltac:(lia) ltac:(split; [exists d; reflexivity|exists r; reflexivity])) as (col & C1 & C2).
            pose proof (forward _ _ _ _ S' T' ltac:(discriminate)) as T2. pose proof (snoc _ _ _ S') as S2.
            unfold text_start. rewrite C1. eapply flushed; [exact S| |exact NA| |].
            * eapply pending_marks; [| |exact H]; reflexivity.
            * intros m' MM _ X1 X2. exists ((d ++ [47%N]) ++ [42%N]). split; [exact S2|].
              split; [eapply tracks_marked; [exact MM|eapply tracks_marked; [apply marked_text|exact T2]]|].
              cbn [x_next pmk inside x_state x_tag x_m x_buf]. split; [reflexivity|]. split; [reflexivity|]. rewrite X1, X2. exact C2.
            * intros _ _ -> -> _. cbn [length] in Hn.
              apply IH with ((d ++ [47%N]) ++ [42%N]); [lia|exact S2|eapply tracks_marked; [apply marked_text|exact T2]|].
              cbn [inside]. split; [reflexivity|]. split; [reflexivity|]. destruct C2 as (k & K1 & K2). exists k. split; [lia|exact K2].
          + eapply invalid_fine; [exact S'|exact T'|lia]. }
      destruct (N.eqb_spec c 35) as [->|N35].
      { pose proof (forward _ _ _ _ S T ltac:(discriminate)) as T'. eapply flushed; [exact S| |exact NA| |].
        - eapply pending_marks; [| |exact H]; reflexivity.
        - intros m' MM _ X1 X2. exists (d ++ [35%N]). split; [exact S'|].
          split; [eapply tracks_marked; [exact MM|exact T']|].
          cbn [x_next pmk inside x_state x_tag x_buf]. repeat split; lia.
        - intros _ _ -> -> _. apply IH with (d ++ [35%N]); auto; [lia|]. cbn [inside]. repeat split; lia. }
      destruct (space_byte c) eqn:SP.
      { assert (T' : tracks (d ++ [c]) (if N.eqb c 10 then new_line (step m) else step m)).
        { destruct (N.eqb_spec c 10) as [->|E]; [eapply forward_line; eauto|eapply forward; eauto]. }
        eapply flushed; [exact S| |exact NA| |].
        - eapply pending_marks; [| |exact H]; destruct (N.eqb c 10); reflexivity.
        - intros m' MM _ X1 X2. exists (d ++ [c]). split; [exact S'|]. split; [eapply tracks_marked; [exact MM|exact T']|].
          cbn [x_next pmk inside x_state x_tag x_buf]. split; [constructor|]. lia.
        - intros _ _ -> -> _. apply IH with (d ++ [c]); auto; [lia|]. cbn [inside]. split; [constructor|]. lia. }
      assert (N10 : c <> 10%N) by (intros ->; discriminate).
      unfold punct_of.
      repeat match goal with |- context [N.eqb c ?x] => destruct (N.eqb_spec c x) as [->|?] end;
        try (apply punct_fine with d; auto; intros z; exists r; reflexivity).
      eapply invalid_fine; eauto.
    - (* bracket comment *)
      destruct H as (-> & -> & H). pose proof (here_more _ _ [c] _ _ _ H) as H'. pose proof (here_lo _ _ _ _ _ H) as LO.
      destruct (N.eqb_spec c 47) as [->|N47]; cbn [andb]; [destruct (N.eqb last 42)|]; cbn [N.eqb Pos.eqb].
      + apply IH with (d ++ [47%N]); auto; [lia|eapply forward; eauto; discriminate|]. cbn [inside]. split; [constructor|lia].
      + apply IH with (d ++ [47%N]); auto; [lia|eapply forward; eauto; discriminate|]. cbn [inside]. auto.
      + destruct (N.eqb_spec c 10) as [->|N10].
        * apply IH with (d ++ [10%N]); auto; [lia|eapply forward_line; eauto|]. cbn [inside]. auto.
        * apply IH with (d ++ [c]); auto; [lia|eapply forward; eauto|]. cbn [inside]. auto.
    - (* hash comment *)
      destruct H as (-> & -> & LO). destruct (N.eqb_spec c 10) as [->|N10].
      + apply IH with (d ++ [10%N]); auto; [lia|eapply forward_line; eauto|]. cbn [inside]. split; [constructor|lia].
      + apply IH with (d ++ [c]); auto; [lia|eapply forward; eauto|]. cbn [inside]. repeat split; lia.
    - (* quoted *)
      destruct H as (-> & H). pose proof (here_more _ _ [c] _ _ _ H) as H'.
      destruct (column_here script d m c r S T (room _ _ _ S)) as (col & G & _).
      assert (K : forall b' c' t' m', tracks (d ++ [c]) m' -> texts m m' -> fine lo (plex_go L M r b' false c' (SQuoted t') m')).
      { intros b' c' t' m' A (B1 & B2). apply IH with (d ++ [c]); auto; [lia|]. cbn [inside]. rewrite <- B1, <- B2. auto. }
      destruct (N.eqb c 34 && negb (N.eqb last 92)) eqn:E.
      { apply andb_prop in E. destruct E as [E _]. apply N.eqb_eq in E. subst c.
        apply string_fine with (d ++ [34%N]); auto; [eapply forward; eauto; discriminate|].
        eapply here_imp; [|exact H']. auto. }
      destruct (N.eqb_spec c 10) as [->|N10].
      { eapply push_fine; [apply column_line|]. intros m' MM (TT & TU).
        apply K; [eapply tracks_marked; [exact MM|eapply forward_line; eauto]|split; [rewrite <- TT|rewrite <- TU]; reflexivity]. }
      pose proof (forward _ _ _ _ S T N10) as T'.
      assert (P : forall b b' c' t', fine lo (push b (step m) (plex_go L M r b' false c' (SQuoted t')))).
      { intros b0 b' c' t'. eapply push_fine; [exact G|]. intros m' MM (TT & TU).
        apply K; [eapply tracks_marked; [exact MM|exact T']|split; [rewrite <- TT|rewrite <- TU]; reflexivity]. }
      destruct (N.eqb c 123 && (N.eqb last 36 || N.eqb last 37)); [apply P|].
      destruct (N.eqb c 92); [destruct (N.eqb last 92); [apply P|apply K; [exact T'|split; reflexivity]]|].
      destruct (is_digit_ascii c); [apply P|]. destruct (N.eqb c 46); apply P.
    - (* after text: *)
      cbn [inside] in H. pose proof (here_more _ _ [c] _ _ _ H) as H'. destruct (N.eqb_spec c 10) as [->|N10].
      + apply IH with (d ++ [10%N]); auto; [lia|eapply forward_line; eauto|]. cbn [inside]. auto.
      + apply IH with (d ++ [c]); auto; [lia|eapply forward; eauto].
    - (* multiline *)
      destruct H as (-> & H). pose proof (here_more _ _ [c] _ _ _ H) as H'.
      destruct (column_here script d m c r S T (room _ _ _ S)) as (col & G & _).
      destruct (N.eqb c 46 && N.eqb last 10) eqn:E.
      { apply andb_prop in E. destruct E as [E _]. apply N.eqb_eq in E. subst c.
        pose proof (forward _ _ _ _ S T ltac:(discriminate)) as T'. destruct r as [|c1 r].
        { apply IH with (d ++ [46%N]); auto; [cbn; lia|]. cbn [inside]. auto. }
        pose proof (snoc _ _ _ S') as S2. cbn [length] in Hn. pose proof (here_more _ _ [c1] _ _ _ H') as H2.
        destruct (column_here script _ _ c1 r S' T' (room _ _ _ S')) as (col2 & G2 & _).
        destruct (N.eqb c1 13 && head_is 10 r) eqn:E.
        { apply andb_prop in E. destruct E as [E F]. apply N.eqb_eq in E. subst c1. destruct r as [|c2 r]; [discriminate|].
          cbn [head_is] in F. apply N.eqb_eq in F. subst c2. cbn [tl].
          pose proof (forward _ _ _ _ S' T' ltac:(discriminate)) as T2.
          apply string_fine with (((d ++ [46%N]) ++ [13%N]) ++ [10%N]); [apply snoc, S2|eapply forward_line; eauto|].
          apply here_more. eapply here_imp; [|exact H2]. auto. }
        destruct (N.eqb_spec c1 10) as [->|N10].
        { apply string_fine with ((d ++ [46%N]) ++ [10%N]); [exact S2|eapply forward_line; eauto|].
          eapply here_imp; [|exact H2]. auto. }
        pose proof (forward _ _ _ _ S' T' N10) as T2.
        destruct (N.eqb c1 46); (eapply push_fine; [exact G2|]; intros m' MM (TT & TU);
          apply IH with ((d ++ [46%N]) ++ [c1]); [lia|exact S2|eapply tracks_marked; [exact MM|exact T2]|];
          cbn [inside]; rewrite <- TT, <- TU; auto). }
      assert (K : forall b' c' t' m', tracks (d ++ [c]) m' -> texts m m' -> fine lo (plex_go L M r b' false c' (SMulti t') m')).
      { intros b' c' t' m' A (B1 & B2). apply IH with (d ++ [c]); auto; [lia|]. cbn [inside]. rewrite <- B1, <- B2. auto. }
      destruct (N.eqb_spec c 10) as [->|N10].
      { eapply push_fine; [apply column_line|]. intros m' MM (TT & TU).
        apply K; [eapply tracks_marked; [exact MM|eapply forward_line; eauto]|split; [rewrite <- TT|rewrite <- TU]; reflexivity]. }
      pose proof (forward _ _ _ _ S T N10) as T'.
      assert (P : forall b b' c' t', fine lo (push b (step m) (plex_go L M r b' false c' (SMulti t')))).
      { intros b0 b' c' t'. eapply push_fine; [exact G|]. intros m' MM (TT & TU).
        apply K; [eapply tracks_marked; [exact MM|exact T']|split; [rewrite <- TT|rewrite <- TU]; reflexivity]. }
      destruct (N.eqb c 123 && (N.eqb last 36 || N.eqb last 37)); [apply P|].
      destruct (is_digit_ascii c); [apply P|]. destruct (N.eqb c 46); apply P.
  Qed.

  Lemma next_fine lo q : inv lo q -> fine lo (plex_next L M q).
  Proof.
    intros (d & A & B & C). unfold plex_next. destruct (x_next q) as [|((t & line) & col) [|]]; [|
      destruct C as (C1 & C2 & C3 & k & D & E & F & G) | destruct C].
    - eapply go_fine; eauto.
    - exists k. split; [exact D|]. split; [split; assumption|]. exists d. split; [exact A|]. split; [exact B|].
      cbn [x_next pmk x_buf x_tag x_state inside]. rewrite C1, C2, C3. split; [constructor|]. lia.
  Qed.
  Lemma start_inv : inv 0 (plex_start script).
  Proof.
    exists []. split; [reflexivity|]. split.
    - split; [left; split; reflexivity|]. split; [reflexivity|]. left. split; [intros []|reflexivity].
    - split; [constructor|]. apply Nat.le_refl.
  Qed.
  Lemma reads_order q is : reads L M q is -> forall lo, inv lo q -> in_order script lo is.
  Proof.
    induction 1 as [q q' A|q t line col q' is A B IH|q e c line col q' A]; intros lo H;
      pose proof (next_fine lo q H) as F; rewrite A in F; cbn [fine] in F.
    - destruct F as [F1 F2]. econstructor; [exact F1|split; [reflexivity|exact F2]|constructor].
    - destruct F as (k & F1 & F2 & F3). econstructor; [exact F1|exact F2|]. auto.
    - destruct F as (k & F1 & F2). econstructor; [exact F1|exact F2|constructor].
  Qed.
  Lemma place_room k line col : place script k line col -> k < length script.
  Proof. intros H. inversion H as [a c r A|z a c r A]; rewrite A, !app_length; cbn [length]; lia. Qed.
  Lemma reads_all : forall n lo q, length script < lo + n -> inv lo q -> exists is, reads L M q is.
  Proof.
    induction n as [|n IH]; intros lo q Hn H; pose proof (next_fine lo q H) as F;
      destruct (plex_next L M q) as [q'|t line col q'|e c line col q'| |] eqn:E; cbn [fine] in F; try contradiction.
    1,4: destruct F; lia || (eexists; eapply reads_end; eassumption).
    1,3: destruct F as (k & F1 & F2 & F3); pose proof (place_room _ _ _ (proj1 F2)).
    - lia.
    - destruct (IH (k + 1) q') as (is & I); [lia|exact F3|]. eexists. eapply reads_token; eassumption.
    - eexists. eapply reads_fault; eassumption.
    - eexists. eapply reads_fault; eassumption.
  Qed.
End Places.

(** The tokenizer without places is this one with the places forgotten. *)
Definition erase (q : plx) : lex :=
  mk (x_in q) (x_buf q) (x_tag q) (x_last q) (x_state q) (map (fun i => fst (fst i)) (x_next q)).
Definition agree (r : qres) (r' : lres) : Prop :=
  match r, r' with
  | QEof q, LEof l => l = erase q
  | QTok t _ _ q, LTok t' l => t = t' /\ l = erase q
  | QErr e _ _ _ q, LErr e' l => e = e' /\ l = erase q
  | QPanic, LPanic => True
  | QOverflow, _ => True
  | _, _ => False
  end.
Section Erase.
  Variable L : rustlib.
  Variable M : nat.
  Lemma agree_push b m k r : (forall m, agree (k m) r) -> agree (push b m k) r.
  Proof. intros H. unfold push. destruct b; [destruct (column m)|]; auto. exact Logic.I. Qed.
  Lemma agree_text m k r : (forall m, agree (k m) r) -> agree (text_start m k) r.
  Proof. intros H. unfold text_start. destruct (column m); auto. exact Logic.I. Qed.
  Lemma agree_flush b tag m q l k r : (forall m, l = erase (q m)) -> agree k r -> agree (pflush b tag m q k) (flush b tag l r).
  Proof.
    intros A B. unfold pflush, flush. destruct b as [|x b]; [exact B|]. destruct (word_token (x :: b) tag) as [t|]; [|exact Logic.I].
    destruct t; try (split; [reflexivity|apply A]). destruct (N.leb 1 (m_wpos m)); [split; [reflexivity|apply A]|exact Logic.I].
  Qed.
  Lemma agree_invalid c m q l : l = erase q -> agree (invalid c m q) (LErr EInvalidChar l).
  Proof. intros ->. unfold invalid. destruct (column m); [split; reflexivity|exact Logic.I]. Qed.
  Lemma agree_punct r b tag c p m : agree (ppunct r b tag c p m) (punct r b tag c p).
  Proof.
    unfold ppunct, punct. destruct (column m); [|exact Logic.I]. apply agree_flush; [reflexivity|]. split; reflexivity.
  Qed.
  Lemma agree_string r b tag c t m : agree (pget_string L M r b tag c t m) (get_string L M r b tag c t).
  Proof. unfold pget_string, get_string. destruct (Nat.ltb (length b) M); split; reflexivity. Qed.
  Lemma agree_go : forall n i b tag last s m, length i <= n -> agree (plex_go L M i b tag last s m) (lex_go L M i b tag last s).
  Proof.
    induction n as [|n IH]; intros i b tag last s m Hn.
    1: destruct i; [|cbn in Hn; lia].
    2: destruct i as [|c r].
    1,2: destruct s; (split; reflexivity) || reflexivity.
    cbn [length] in Hn. cbn [plex_go lex_go]. cbv zeta.
    assert (K : forall b tag last s m, agree (plex_go L M r b tag last s m) (lex_go L M r b tag last s)) by (intros; apply IH; lia).
    assert (P : forall b0 m b tag last s, agree (push b0 m (plex_go L M r b tag last s)) (lex_go L M r b tag last s))
      by (intros; apply agree_push; auto).
    destruct s as [| | |t| |t].
    - destruct (word_byte c); [apply P|]. destruct (is_upper_ascii c); [apply P|].
      destruct (N.eqb c 58).
      { destruct (is_nil b && head_alpha r); [apply K|]. destruct (teqb_ic b (lit "text")); [apply agree_text; auto|apply agree_punct]. }
      destruct (N.eqb c 34); [apply agree_text; intros; apply agree_flush; auto|].
      destruct (N.eqb c 47).
      { destruct r as [|c1 r]; [apply agree_invalid; reflexivity|]. cbn [length] in Hn.
        destruct (N.eqb c1 42); [|apply agree_invalid; reflexivity].
        apply agree_text. intros. apply agree_flush; [reflexivity|]. apply IH. lia. }
      destruct (N.eqb c 35); [apply agree_flush; auto|].
      destruct (space_byte c); [apply agree_flush; auto|].
      destruct (punct_of c); [apply agree_punct|apply agree_invalid; reflexivity].
    - destruct (N.eqb c 47 && N.eqb last 42); [apply K|]. destruct (N.eqb c 10); apply K.
    - destruct (N.eqb c 10); apply K.
    - destruct (N.eqb c 34 && negb (N.eqb last 92)); [apply agree_string|].
      destruct (N.eqb c 10); [apply P|]. destruct (N.eqb c 123 && (N.eqb last 36 || N.eqb last 37)); [apply P|].
      destruct (N.eqb c 92); [destruct (N.eqb last 92); [apply P|apply K]|].
      destruct (is_digit_ascii c); [apply P|]. destruct (N.eqb c 46); apply P.
    - destruct (N.eqb c 10); apply K.
    - destruct (N.eqb c 46 && N.eqb last 10).
      { destruct r as [|c1 r]; [apply K|]. cbn [length] in Hn.
        destruct (N.eqb c1 13 && head_is 10 r); [apply agree_string|]. destruct (N.eqb c1 10); [apply agree_string|].
        destruct (N.eqb c1 46); apply agree_push; intros; apply IH; lia. }
      destruct (N.eqb c 10); [apply P|]. destruct (N.eqb c 123 && (N.eqb last 36 || N.eqb last 37)); [apply P|].
      destruct (is_digit_ascii c); [apply P|]. destruct (N.eqb c 46); apply P.
  Qed.
  Lemma agree_next q : agree (plex_next L M q) (lex_next L M (erase q)).
  Proof.
    unfold plex_next, lex_next, erase. cbn [l_next mk l_in l_buf l_tag l_last l_state].
    destruct (x_next q) as [|((t & line) & col) x]; [apply agree_go with (length (x_in q)); lia|]. split; reflexivity.
  Qed.
  Lemma reads_lexes q is : reads L M q is -> lexes L M (erase q) (map forget is).
  Proof.
    induction 1 as [q q' A|q t line col q' is A B IH|q e c line col q' A]; pose proof (agree_next q) as F; rewrite A in F;
      destruct (lex_next L M (erase q)) as [l|t' l|e' l|] eqn:E; cbn [agree] in F; try contradiction.
    - eapply lexes_end. exact E.
    - destruct F as [-> ->]. eapply lexes_token; eassumption.
    - destruct F as [-> _]. eapply lexes_fault. exact E.
  Qed.
  Lemma peek_next q t line col q' : plex_peek L M q = QTok t line col q' ->
    exists q'', plex_next L M q = QTok t line col q'' /\ plex_next L M q' = QTok t line col q''.
  Proof.
    unfold plex_peek, plex_next. destruct (x_next q) as [|((t0 & l0) & c0) x] eqn:N.
    - destruct (plex_go L M (x_in q) (x_buf q) (x_tag q) (x_last q) (x_state q) (x_m q)) as [z|u a b z|? ? ? ? ?| |] eqn:E; try discriminate.
      intros H. injection H as -> -> -> <-. eexists. split; [reflexivity|]. cbn [x_next pmk x_in x_buf x_tag x_last x_state x_m].
      destruct z. reflexivity.
    - intros H. injection H as -> -> -> <-. rewrite N. eauto.
  Qed.
End Erase.
