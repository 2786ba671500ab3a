(** UTF-8 decoding as done by the Rust standard library
    ([std::str::from_utf8], [String::from_utf8], [String::from_utf8_lossy]).
    Library functions, defined here after the Unicode definition (table 3-7 of
    the Unicode standard and the "maximal subpart" replacement rule). *)
From Verif Require Import Base Lib.

(** [char] (Rust core library): A Unicode scalar value: what a Rust [char] can be. *)
Definition scalar (c : N) : Prop := (c < 55296 \/ 57344 <= c < 1114112)%N.
(** [char] (Rust core library): the same as a test. *)
Definition scalarb (c : N) : bool := N.ltb c 55296 || (N.leb 57344 c && N.ltb c 1114112).

(** [core::str::validations] (Rust core library): a continuation byte. *)
Definition cont_byte (b : N) : bool := between 128 191 b.
(** [core::str::validations] (Rust core library): Allowed range of the second byte of a three- or
    four-byte sequence. *)
Definition second3 (b c : N) : bool :=
  if N.eqb b 224 then between 160 191 c else if N.eqb b 237 then between 128 159 c else cont_byte c.
(** [core::str::validations] (Rust core library): the same for four bytes. *)
Definition second4 (b c : N) : bool :=
  if N.eqb b 240 then between 144 191 c else if N.eqb b 244 then between 128 143 c else cont_byte c.

(** [core::str::lossy] (Rust core library): The decoded characters, [None] for every maximal invalid
    subpart. *)
Fixpoint utf8_dec (bs : list N) : list (option ch) :=
  match bs with
  | [] => []
  | b :: r =>
      if N.ltb b 128 then Some b :: utf8_dec r
      else if between 194 223 b then
        match r with
        | [] => [None]
        | c1 :: r1 => if cont_byte c1 then Some ((b - 192) * 64 + (c1 - 128))%N :: utf8_dec r1
                      else None :: utf8_dec r
        end
      else if between 224 239 b then
        match r with
        | [] => [None]
        | c1 :: r1 =>
            if second3 b c1 then
              match r1 with
              | [] => [None]
              | c2 :: r2 => if cont_byte c2
                            then Some ((b - 224) * 4096 + (c1 - 128) * 64 + (c2 - 128))%N :: utf8_dec r2
                            else None :: utf8_dec r1
              end
            else None :: utf8_dec r
        end
      else if between 240 244 b then
        match r with
        | [] => [None]
        | c1 :: r1 =>
            if second4 b c1 then
              match r1 with
              | [] => [None]
              | c2 :: r2 =>
                  if cont_byte c2 then
                    match r2 with
                    | [] => [None]
                    | c3 :: r3 =>
                        if cont_byte c3
                        then Some ((b - 240) * 262144 + (c1 - 128) * 4096 + (c2 - 128) * 64 + (c3 - 128))%N
                             :: utf8_dec r3
                        else None :: utf8_dec r2
                    end
                  else None :: utf8_dec r1
              end
            else None :: utf8_dec r
        end
      else None :: utf8_dec r
  end.

(** [collect::<Option<_>>] (Rust core library). *)
Fixpoint all_some {A} (l : list (option A)) : option (list A) :=
  match l with
  | [] => Some []
  | Some x :: l' => option_map (cons x) (all_some l')
  | None :: _ => None
  end.

(** (Rust core library): [std::str::from_utf8], [String::from_utf8] *)
Definition utf8_strict (bs : list N) : option text := all_some (utf8_dec bs).
(** (Rust core library): [String::from_utf8_lossy] *)
Definition utf8_lossy (bs : list N) : text :=
  map (fun o => match o with Some c => c | None => 65533%N end) (utf8_dec bs).
(** src/runtime/eval.rs 465-470 [Vec<u8>::into_string] *)
Definition into_string (bs : list N) : text :=
  match utf8_strict bs with Some t => t | None => utf8_lossy bs end.

(** ** Library facts *)

Lemma all_some_map {A} : forall (l : list A), all_some (map Some l) = Some l.
Proof. induction l as [|x l IH]; [reflexivity|]. cbn. rewrite IH. reflexivity. Qed.

Lemma all_some_inv {A} : forall (l : list (option A)) r, all_some l = Some r -> l = map Some r.
Proof.
  induction l as [|[x|] l IH]; cbn; intros r H.
  - injection H as <-. reflexivity.
  - destruct (all_some l) as [m|] eqn:E; [|discriminate]. injection H as <-. cbn. rewrite (IH m eq_refl). reflexivity.
  - discriminate.
Qed.

Ltac ranges := unfold second3, second4, cont_byte, between in *.
Ltac Ndiv := Z.to_euclidean_division_equations; lia.

Lemma dec_char c r : scalar c -> utf8_dec (utf8_char c ++ r) = Some c :: utf8_dec r.
Proof.
  intro S. unfold utf8_char, scalar in *.
  destruct (N.ltb c 128) eqn:E1; [cbn [app utf8_dec]; rewrite E1; reflexivity|].
  destruct (N.ltb c 2048) eqn:E2.
  { cbn [app utf8_dec]. rewrite (proj2 (N.ltb_ge _ _)) by Ndiv.
    replace (between 194 223 (192 + c / 64)) with true by (ranges; Ndiv).
    replace (cont_byte (128 + c mod 64)) with true by (ranges; Ndiv).
    do 2 f_equal. Ndiv. }
  destruct (N.ltb c 65536) eqn:E3.
  { cbn [app utf8_dec]. rewrite (proj2 (N.ltb_ge _ _)) by Ndiv.
    replace (between 194 223 (224 + c / 4096)) with false by (ranges; Ndiv).
    replace (between 224 239 (224 + c / 4096)) with true by (ranges; Ndiv).
    replace (second3 (224 + c / 4096) (128 + (c / 64) mod 64)) with true.
    2:{ symmetry. ranges. destruct (N.eqb (224 + c / 4096) 224) eqn:F; [Ndiv|].
        destruct (N.eqb (224 + c / 4096) 237) eqn:F2; Ndiv. }
    replace (cont_byte (128 + c mod 64)) with true by (ranges; Ndiv).
    do 2 f_equal. Ndiv. }
  cbn [app utf8_dec]. rewrite (proj2 (N.ltb_ge _ _)) by Ndiv.
  replace (between 194 223 (240 + c / 262144)) with false by (ranges; Ndiv).
  replace (between 224 239 (240 + c / 262144)) with false by (ranges; Ndiv).
  replace (between 240 244 (240 + c / 262144)) with true by (ranges; Ndiv).
  replace (second4 (240 + c / 262144) (128 + (c / 4096) mod 64)) with true.
  2:{ symmetry. ranges. destruct (N.eqb (240 + c / 262144) 240) eqn:F; [Ndiv|].
      destruct (N.eqb (240 + c / 262144) 244) eqn:F2; Ndiv. }
  replace (cont_byte (128 + (c / 64) mod 64)) with true by (ranges; Ndiv).
  replace (cont_byte (128 + c mod 64)) with true by (ranges; Ndiv).
  do 2 f_equal. Ndiv.
Qed.

Lemma dec_text : forall t r, Forall scalar t -> utf8_dec (utf8 t ++ r) = map Some t ++ utf8_dec r.
Proof.
  induction t as [|c t IH]; intros r F; [reflexivity|]. inversion F; subst.
  unfold utf8 in *. cbn [flat_map map app]. rewrite <- app_assoc, dec_char by assumption. rewrite IH by assumption. reflexivity.
Qed.

(** Decoding what was encoded gives the text back. *)
Lemma strict_utf8 t : Forall scalar t -> utf8_strict (utf8 t) = Some t.
Proof.
  intro F. unfold utf8_strict. rewrite <- (app_nil_r (utf8 t)), dec_text by assumption.
  cbn [utf8_dec]. rewrite app_nil_r. apply all_some_map.
Qed.

Lemma into_utf8 t : Forall scalar t -> into_string (utf8 t) = t.
Proof. intro F. unfold into_string. rewrite strict_utf8 by assumption. reflexivity. Qed.

Lemma utf8_app a b : utf8 (a ++ b) = utf8 a ++ utf8 b.
Proof. unfold utf8. apply flat_map_app. Qed.

(** Only valid encodings are accepted, and they are the encodings. *)
Lemma strict_inv : forall bs t, utf8_strict bs = Some t -> utf8 t = bs /\ Forall scalar t.
Proof.
  intros bs t H. apply all_some_inv in H. revert t H.
  assert (G : forall n bs, length bs <= n -> forall t, utf8_dec bs = map Some t -> utf8 t = bs /\ Forall scalar t).
  { induction n as [|n IH]; intros [|b r] Ln t H; cbn [length] in Ln; try lia.
    - destruct t; [split; [reflexivity|constructor]|discriminate].
    - destruct t; [split; [reflexivity|constructor]|discriminate].
    - destruct t as [|c t].
      { exfalso. cbn [utf8_dec map] in H.
        repeat match type of H with context [if ?x then _ else _] => destruct x | context [match ?x with [] => _ | _ :: _ => _ end] => destruct x end; discriminate. }
      assert (K : forall bs', length bs' <= n -> utf8_dec bs' = map Some t -> forall pre, utf8_char c = pre -> scalar c ->
                  utf8 (c :: t) = pre ++ bs' /\ Forall scalar (c :: t)).
      { intros bs' Lb D pre P S. destruct (IH bs' Lb t D) as [U F]. split.
        - unfold utf8 in *. cbn [flat_map]. rewrite P, U. reflexivity.
        - constructor; assumption. }
      cbn [utf8_dec map] in H.
      destruct (N.ltb b 128) eqn:E1.
      { injection H as <- H. apply (K r ltac:(lia) H [b]).
        - unfold utf8_char. rewrite E1. reflexivity.
        - unfold scalar. lia. }
      destruct (between 194 223 b) eqn:E2.
      { destruct r as [|c1 r1]; [discriminate|]. destruct (cont_byte c1) eqn:C1; [|discriminate]. injection H as <- H.
        apply (K r1 ltac:(cbn [length] in Ln; lia) H [b; c1]); ranges.
        - unfold utf8_char. rewrite (proj2 (N.ltb_ge _ _)) by lia. rewrite (proj2 (N.ltb_lt _ _)) by lia.
          f_equal; [Ndiv|f_equal; Ndiv].
        - unfold scalar. lia. }
      destruct (between 224 239 b) eqn:E3.
      { destruct r as [|c1 r1]; [discriminate|]. destruct (second3 b c1) eqn:C1; [|discriminate].
        destruct r1 as [|c2 r2]; [discriminate|]. destruct (cont_byte c2) eqn:C2; [|discriminate]. injection H as <- H.
        assert (R1 : (128 <= c1 <= 191)%N) by (ranges; destruct (N.eqb b 224); [lia|destruct (N.eqb b 237); lia]).
        assert (R2 : (b = 224 -> 160 <= c1)%N) by (ranges; intro Eb; repeat match type of C1 with context [if ?x then _ else _] => destruct x eqn:? end; lia).
        assert (R3 : (b = 237 -> c1 <= 159)%N) by (ranges; intro Eb; repeat match type of C1 with context [if ?x then _ else _] => destruct x eqn:? end; lia).
        apply (K r2 ltac:(cbn [length] in Ln; lia) H [b; c1; c2]); ranges.
        - unfold utf8_char. rewrite (proj2 (N.ltb_ge _ _)) by lia. rewrite (proj2 (N.ltb_ge _ _)) by lia.
          rewrite (proj2 (N.ltb_lt _ _)) by lia.
          f_equal; [Ndiv|f_equal; [Ndiv|f_equal; Ndiv]].
        - unfold scalar. lia. }
      destruct (between 240 244 b) eqn:E4; [|discriminate].
      destruct r as [|c1 r1]; [discriminate|]. destruct (second4 b c1) eqn:C1; [|discriminate].
      destruct r1 as [|c2 r2]; [discriminate|]. destruct (cont_byte c2) eqn:C2; [|discriminate].
      destruct r2 as [|c3 r3]; [discriminate|]. destruct (cont_byte c3) eqn:C3; [|discriminate]. injection H as <- H.
      assert (R1 : (128 <= c1 <= 191)%N) by (ranges; destruct (N.eqb b 240); [lia|destruct (N.eqb b 244); lia]).
      assert (R2 : (b = 240 -> 144 <= c1)%N) by (ranges; intro Eb; repeat match type of C1 with context [if ?x then _ else _] => destruct x eqn:? end; lia).
      assert (R3 : (b = 244 -> c1 <= 143)%N) by (ranges; intro Eb; repeat match type of C1 with context [if ?x then _ else _] => destruct x eqn:? end; lia).
      apply (K r3 ltac:(cbn [length] in Ln; lia) H [b; c1; c2; c3]); ranges.
      + unfold utf8_char. rewrite (proj2 (N.ltb_ge _ _)) by lia. rewrite (proj2 (N.ltb_ge _ _)) by lia.
        rewrite (proj2 (N.ltb_ge _ _)) by lia.
        f_equal; [Ndiv|f_equal; [Ndiv|f_equal; [Ndiv|f_equal; Ndiv]]].
      + unfold scalar. lia. }
  intros t H. exact (G (length bs) bs (le_n _) t H).
Qed.

Lemma ascii_utf8 t : Forall (fun c => (c < 128)%N) t -> utf8 t = t.
Proof.
  induction t as [|c t IH]; intro F; [reflexivity|]. inversion F; subst. unfold utf8 in *. cbn [flat_map]. rewrite IH by assumption.
  unfold utf8_char. rewrite (proj2 (N.ltb_lt _ _)) by assumption. reflexivity.
Qed.

Lemma ascii_strict t : Forall (fun c => (c < 128)%N) t -> utf8_strict t = Some t.
Proof.
  intro F. rewrite <- (ascii_utf8 t F) at 1. apply strict_utf8.
  eapply Forall_impl; [|exact F]. unfold scalar. cbn. intros. lia.
Qed.
