(** Specification of the header fields that replace and enclose write (C79). *)
From Verif Require Import Base Lib Flags Message EditHeaderSpec Mime.
Import ListNotations.

(** The text has no line break; the bytes are one line. *)
Definition unbroken (t : text) : Prop := forall c, In c t -> ~ breaks_header c.
Definition one_line (b : list N) : Prop := exists l, b = l ++ [13; 10]%N /\ ~ In 13%N l /\ ~ In 10%N l.

(** Name [n] and value [v] come from the argument [h], "name: value", of enclose; the
    name is not protected. *)
Definition taken (L : rustlib) (M : mailparser) (E : mimeenv) (h n v : text) : Prop :=
  exists a b hn, h = a ++ 58%N :: b /\ ~ In 58%N a /\ n = trim (chr_is_ws L) a /\ unbroken v /\ blen v <= me_max_header E /\
    hn_parse M n = Some hn /\ forall p, In p (me_protected E) -> teqb_ic hn p = false.
