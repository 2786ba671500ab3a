(** Common vocabulary of the model: characters, text, ASCII helpers.

    Simplification used everywhere: a Rust [char] or [u8] is a binary natural
    number, a Rust [String]/[&str]/[Vec<u8>] is the list of its characters (or
    bytes, where the modelled code works on bytes).  Which of the two is meant
    is said at each definition. *)
From Coq Require Export String Ascii.
From Coq Require Export List NArith ZArith Bool Arith Lia.
From Coq Require Export ZifyBool ZifyNat ZifyN.
Export ListNotations.
Open Scope list_scope.

Arguments N.add : simpl never.
Arguments N.sub : simpl never.
Arguments N.mul : simpl never.
Arguments N.leb : simpl never.
Arguments N.ltb : simpl never.
Arguments N.eqb : simpl never.
Arguments Z.add : simpl never.
Arguments Z.sub : simpl never.
Arguments Z.mul : simpl never.

(** No lines of /repo: the representation of a Rust [char] or [u8]. One character / byte. *)
Definition ch := N.
(** No lines of /repo: the representation of [String], [&str] and [Vec<u8>]. A text: list of characters
    (or bytes). *)
Definition text := list ch.

(** Notation helper only: the text of a Coq string literal (ASCII). *)
Fixpoint lit (s : string) : text :=
  match s with
  | EmptyString => []
  | String a s' => N_of_ascii a :: lit s'
  end.

(** Rust core. Equality of texts, decidable ([str] equality). *)
Fixpoint teqb (a b : text) : bool :=
  match a, b with
  | [], [] => true
  | x :: a', y :: b' => N.eqb x y && teqb a' b'
  | _, _ => false
  end.

(** Rust range patterns [lo..=hi] (no lines of /repo). *)
Definition between (lo hi c : N) : bool := N.leb lo c && N.leb c hi.

(** Rust core: [u8::is_ascii_uppercase], [is_ascii_lowercase], [is_ascii_digit],
    [to_ascii_lowercase], [to_ascii_uppercase] (library functions, defined by
    the ASCII table). *)
Definition is_upper_ascii (c : ch) : bool := between 65%N 90%N c.
(** Rust core: [u8::is_ascii_lowercase]. *)
Definition is_lower_ascii (c : ch) : bool := between 97%N 122%N c.
(** Rust core: [u8::is_ascii_alphabetic]. *)
Definition is_alpha_ascii (c : ch) : bool := is_upper_ascii c || is_lower_ascii c.
(** Rust core: [u8::is_ascii_digit]. *)
Definition is_digit_ascii (c : ch) : bool := between 48%N 57%N c.
(** Rust core: [u8::is_ascii_alphanumeric]. *)
Definition is_alnum_ascii (c : ch) : bool := is_alpha_ascii c || is_digit_ascii c.
(** Rust core: [u8::to_ascii_lowercase]. *)
Definition lower_ascii (c : ch) : ch := if is_upper_ascii c then (c + 32)%N else c.
(** Rust core: [u8::to_ascii_uppercase]. *)
Definition upper_ascii (c : ch) : ch := if is_lower_ascii c then (c - 32)%N else c.
(** Rust core: [str::to_ascii_lowercase]. *)
Definition lower_text (s : text) : text := map lower_ascii s.
(** Rust core: [str::to_ascii_uppercase]. *)
Definition upper_text (s : text) : text := map upper_ascii s.
(** Rust core: [str::eq_ignore_ascii_case]. *)
Definition teqb_ic (a b : text) : bool := teqb (lower_text a) (lower_text b).
(** Rust core: [u8::is_ascii_whitespace] (space, tab, LF, FF, CR). *)
Definition is_ws_ascii (c : ch) : bool :=
  N.eqb c 32%N || N.eqb c 9%N || N.eqb c 10%N || N.eqb c 12%N || N.eqb c 13%N.

(** Named characters. *)
Definition c_star : ch := 42%N.
Definition c_quest : ch := 63%N.
Definition c_bslash : ch := 92%N.
Definition c_dquote : ch := 34%N.
Definition c_space : ch := 32%N.
Definition c_cr : ch := 13%N.
Definition c_lf : ch := 10%N.
Definition c_at : ch := 64%N.
Definition c_dot : ch := 46%N.

Lemma teqb_spec : forall a b, teqb a b = true <-> a = b.
Proof.
  induction a as [|x a IH]; intros [|y b]; simpl; split; intro H; try congruence; try reflexivity.
  - apply andb_true_iff in H as [H1 H2]. apply N.eqb_eq in H1. apply IH in H2. congruence.
  - inversion H; subst. rewrite N.eqb_refl. simpl. apply IH. reflexivity.
Qed.

Lemma teqb_refl : forall a, teqb a a = true.
Proof. intro a. apply teqb_spec. reflexivity. Qed.

Lemma teqb_false : forall a b, teqb a b = false <-> a <> b.
Proof.
  intros a b. split; intro H.
  - intro E. apply teqb_spec in E. congruence.
  - destruct (teqb a b) eqn:E; [|reflexivity]. apply teqb_spec in E. contradiction.
Qed.

Lemma teqb_sym : forall a b, teqb a b = teqb b a.
Proof.
  intros a b. destruct (teqb a b) eqn:E.
  - apply teqb_spec in E. subst. symmetry. apply teqb_refl.
  - symmetry. apply teqb_false. apply teqb_false in E. congruence.
Qed.

Lemma lower_ascii_idem : forall c, lower_ascii (lower_ascii c) = lower_ascii c.
Proof.
  intro c. unfold lower_ascii, is_upper_ascii, between.
  destruct (N.leb 65%N c && N.leb c 90%N) eqn:E.
  - apply andb_true_iff in E as [E1 E2]. apply N.leb_le in E1, E2.
    destruct (N.leb 65%N (c + 32)%N && N.leb (c + 32)%N 90%N) eqn:E'; [|reflexivity].
    apply andb_true_iff in E' as [F1 F2]. apply N.leb_le in F1, F2. lia.
  - rewrite E. reflexivity.
Qed.

Lemma lower_text_idem : forall s, lower_text (lower_text s) = lower_text s.
Proof. unfold lower_text. intro s. rewrite map_map. apply map_ext. apply lower_ascii_idem. Qed.

Lemma teqb_ic_spec : forall a b, teqb_ic a b = true <-> lower_text a = lower_text b.
Proof. intros. unfold teqb_ic. apply teqb_spec. Qed.

Lemma teqb_ic_refl : forall a, teqb_ic a a = true.
Proof. intro. apply teqb_ic_spec. reflexivity. Qed.

Lemma teqb_ic_sym : forall a b, teqb_ic a b = teqb_ic b a.
Proof. intros. apply teqb_sym. Qed.

Lemma skipn_skipn' {A} : forall a b (l : list A), skipn a (skipn b l) = skipn (a + b) l.
Proof.
  intros a b. revert a. induction b as [|b IH]; intros a l.
  - rewrite Nat.add_0_r. reflexivity.
  - destruct l as [|x l]; [rewrite !skipn_nil; reflexivity|].
    rewrite Nat.add_succ_r. cbn [skipn]. apply IH.
Qed.

Lemma map_repeat' {A B} (f : A -> B) x n : map f (repeat x n) = repeat (f x) n.
Proof. induction n as [|n IH]; simpl; [reflexivity|rewrite IH; reflexivity]. Qed.
