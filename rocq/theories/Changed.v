(** What the host can ask about the message when the script is over. *)
From Verif Require Import Base Lib Message EditHeader Run.

(** context.rs 616-618 [has_message_changed]. *)
Definition has_message_changed (s : rst) : bool := Nat.ltb 0 (r_main s).
(** context.rs 636-638 [message]; context.rs 612-614 [take_message] hands out the same value. The parts only. *)
Definition message (s : rst) : list part := ms_parts (r_msg s).
