(** Specification: the text that some bytes are read as. *)
From Verif Require Import Base Lib Utf8.

(** A part of a character: its encoding starts with these bytes and goes on. *)
Definition begins (bs : list N) : Prop := exists c more, scalar c /\ more <> [] /\ utf8_char c = bs ++ more.
(** The bytes [bad], followed by [rest], are no text: no character starts here, and
    [bad] is the longest part of a character (or one byte, where there is none). *)
Definition ill_formed (bad rest : list N) : Prop :=
  bad <> [] /\ (forall c r, scalar c -> bad ++ rest <> utf8_char c ++ r) /\
  (begins bad \/ length bad = 1) /\
  (forall x r, rest = x :: r -> ~ begins (bad ++ [x])).
(** Every character stands for itself and every ill-formed sequence for one
    replacement character U+FFFD. *)
Inductive decodes : list N -> text -> Prop :=
| d_end : decodes [] []
| d_char c bs t : scalar c -> decodes bs t -> decodes (utf8_char c ++ bs) (c :: t)
| d_bad bad bs t : ill_formed bad bs -> decodes bs t -> decodes (bad ++ bs) (65533%N :: t).
