(** Independent specification of flag variables. *)
From Verif Require Import Base Lib Var Value SetVar SetSpec Flags.

(** A proper flag name: not empty and free of spaces. *)
Definition proper_flag (f : text) : Prop := f <> [] /\ ~ In c_space f.

(** The text of a variable holding the flags [fl]: the flags separated by single
    spaces. *)
Inductive flag_text : list text -> text -> Prop :=
| ft_none : flag_text [] []
| ft_one : forall f, proper_flag f -> flag_text [f] f
| ft_more : forall f fl t, proper_flag f -> fl <> [] -> flag_text fl t -> flag_text (f :: fl) (f ++ [c_space] ++ t).

(** Flags are compared without regard to letter case. *)
Definition has_ci (L : rustlib) (f : text) (fl : list text) : Prop :=
  In (str_lower L f) (map (str_lower L) fl).
Definition no_dup_ci (L : rustlib) (fl : list text) : Prop := NoDup (map (str_lower L) fl).

(** Bytes taken by a flag list. *)
Definition flags_size (fl : list text) : nat := list_sum (map (fun f => S (blen f)) fl).

(** What the flags become. *)
Definition new_flags_ok (L : rustlib) (a : flag_action) (fl toks fl' : list text) : Prop :=
  no_dup_ci L fl' /\
  forall f, has_ci L f fl' <->
    match a with
    | FSet => has_ci L f toks
    | FAdd => has_ci L f fl \/ has_ci L f toks
    | FRemove => has_ci L f fl /\ ~ has_ci L f toks
    end.

(** A variable holding the flags [fl] (unset counts as no flags). *)
Definition holds (c : vctx) (n : vartype) (fl : list text) : Prop :=
  (exists t, variable c n = Some (VStr t) /\ flag_text fl t) \/ (variable c n = None /\ fl = []).

(** A run of flag actions on the variable [n], with arbitrary other actions that
    do not touch it in between; the list collects the flags given. *)
Inductive flag_run (L : rustlib) (max : nat) (n : vartype) : vctx -> list text -> vctx -> Prop :=
| fr_end : forall c, flag_run L max n c [] c
| fr_act : forall c a strings rest c',
    flag_run L max n (fst (exec_flags L max c a (Some n) strings)) rest c' ->
    flag_run L max n c (flag_tokens L c strings ++ rest) c'
| fr_other : forall c c1 toks c',
    variable c1 n = variable c n -> assignable c1 n ->
    flag_run L max n c1 toks c' -> flag_run L max n c toks c'.

