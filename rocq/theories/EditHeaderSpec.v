(** Independent specification of header editing. *)
From Verif Require Import Base Lib Message MessageSpec EditHeader.

(** [before] without the headers at the positions [gone] (counted from [i]). *)
Inductive without (gone : nat -> Prop) : nat -> list header -> list header -> Prop :=
| w_nil : forall i, without gone i [] []
| w_drop : forall i h l l', gone i -> without gone (S i) l l' -> without gone i (h :: l) l'
| w_keep : forall i h l l', ~ gone i -> without gone (S i) l l' -> without gone i (h :: l) (h :: l').

(** Same part except for the header list. *)
Definition same_but_headers (p q : part) : Prop := p_ct p = p_ct q /\ p_body p = p_body q.

(** Bytes of all header fields of the message. *)
Definition headers_size (parts : list part) : nat :=
  list_sum (map (fun p => list_sum (map header_size (p_headers p))) parts).

(** Values that end a header field or separate its name. *)
Definition breaks_header (c : ch) : Prop := c = c_cr \/ c = c_lf.
Definition ends_name (c : ch) : Prop := c = 58%N \/ c = c_space \/ c = 9%N \/ breaks_header c.

(** [t] is the longest prefix of [s] of at most [max] bytes. *)
Definition cut_to (max : nat) (s t : text) : Prop :=
  exists rest, s = t ++ rest /\ blen t <= max /\
    match rest with [] => True | c :: _ => max < blen t + len_utf8 c end.
