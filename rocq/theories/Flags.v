(** Model of the imap4flags actions and test:
    src/runtime/actions/action_flags.rs, src/runtime/tests/test_hasflag.rs. *)
From Verif Require Import Base Lib Var Value SetVar Glob Comparator.

(** Rust core. [str::split(' ')]: always at least one piece. *)
Fixpoint split_sp (s : text) : list text :=
  match s with
  | [] => [[]]
  | c :: s' => if N.eqb c c_space then [] :: split_sp s'
               else match split_sp s' with [] => [[c]] | w :: ws => (c :: w) :: ws end
  end.
(** Rust core. [join(" ")] *)
Fixpoint join_sp (l : list text) : text :=
  match l with
  | [] => []
  | [w] => w
  | w :: l' => w ++ c_space :: join_sp l'
  end.
(** Rust core. [str::split_ascii_whitespace] *)
Fixpoint words_go (s cur : text) : list text :=
  match s with
  | [] => match cur with [] => [] | _ => [cur] end
  | c :: s' => if is_ws_ascii c then (match cur with [] => [] | _ => [cur] end) ++ words_go s' []
               else words_go s' (cur ++ [c])
  end.
(** Rust core: [str::split_ascii_whitespace]. *)
Definition words (s : text) : list text := words_go s [].

(** Rust core. [str::trim], [ws] being [char::is_whitespace] *)
Fixpoint trim_start (ws : ch -> bool) (s : text) : text :=
  match s with [] => [] | c :: s' => if ws c then trim_start ws s' else s end.
(** Rust core: [str::trim]. *)
Definition trim (ws : ch -> bool) (s : text) : text :=
  rev (trim_start ws (rev (trim_start ws s))).

(** grammar/actions/action_flags.rs 39-43. grammar/actions/action_flags.rs [Action] *)
Inductive flag_action := FSet | FAdd | FRemove.

(** Rust core. [Vec::swap_remove] *)
Definition swap_remove {A} (i : nat) (l : list A) : list A :=
  match rev l with
  | [] => l
  | x :: r => firstn (length l - 1) (upd i x l)
  end.

(** Rust core. [Iterator::position] *)
Fixpoint position {A} (f : A -> bool) (l : list A) : option nat :=
  match l with
  | [] => None
  | x :: l' => if f x then Some 0 else option_map S (position f l')
  end.

Section F.
  Variable L : rustlib.

  (** action_flags.rs 90-111 [tokenize_flags]: the flags handed to the callback,
      in order (the stopping callback is applied by the users below). *)
  Definition tokenize_flags (strings : list text) : list text :=
    match strings with
    | [s] => words s
    | _ => flat_map (fun s => match s with [] => [] | _ => [trim (chr_is_ws L) s] end) strings
    end.
  (** action_flags.rs 90-111 [tokenize_flags], the flags in order. *)
  Definition flag_tokens (c : vctx) (strings : list value) : list text :=
    tokenize_flags (map (fun x => v_text L (eval_value L c x)) strings).

  (** action_flags.rs 23-36 and 44-60: the common loop of setflag and addflag. *)
  Fixpoint add_loop (toks : list text) (flags : text) (lcs : list text) : text :=
    match toks with
    | [] => flags
    | f :: rest =>
        let lc := str_lower L f in
        if existsb (teqb lc) lcs then add_loop rest flags lcs
        else add_loop rest ((match flags with [] => [] | _ => flags ++ [c_space] end) ++ f) (lcs ++ [lc])
    end.

  (** action_flags.rs 71-82: the loop of removeflag.  Simplification: the
      parallel vectors [current_flags] and [current_flags_lc] are one list of
      pairs. *)
  Fixpoint remove_loop (toks : list text) (cur : list (text * text)) : list (text * text) :=
    match toks with
    | [] => cur
    | f :: rest =>
        let lc := str_lower L f in
        match position (fun p => teqb (snd p) lc) cur with
        | Some i => remove_loop rest (swap_remove i cur)
        | None => remove_loop rest cur
        end
    end.

  (** action_flags.rs 21-86: new content of the flag variable. *)
  Definition edit_flags (a : flag_action) (cur : text) (toks : list text) : text :=
    match a with
    | FSet => add_loop toks [] []
    | FAdd => add_loop toks cur (map (str_lower L) (split_sp cur))
    | FRemove => join_sp (map fst (remove_loop toks (map (fun f => (f, str_lower L f)) (split_sp cur))))
    end.

  (** action_set.rs 77-96 [get_variable] *)
  Definition get_variable (c : vctx) (n : vartype) : option var :=
    match n with
    | TLocal _ | TGlobal _ | TEnvelope _ => variable c n
    | _ => None
    end.

  (** action_flags.rs 16-86: [get_variable(name).map_or("", to_string)]. *)
  Definition var_text (v : option var) : text := match v with Some x => v_text L x | None => [] end.

  (** action_flags.rs 16-20: the variable edited when none is named. *)
  Definition default_flags : vartype := TGlobal (lit "__flags").

  (** action_flags.rs 15-87 [EditFlags::exec] *)
  Definition exec_flags (max : nat) (c : vctx) (a : flag_action) (name : option vartype)
             (strings : list value) : vctx * option (envk * text) :=
    let n := match name with Some n => n | None => default_flags end in
    set_variable L max c n (VStr (edit_flags a (var_text (get_variable c n)) (flag_tokens c strings))).

  (** action_flags.rs 122-140 [get_global_flags], [get_local_or_global_flags] *)
  Definition flags_of_var (v : option var) : list text :=
    match v with
    | Some x => if v_is_empty x then [] else split_sp (v_text L x)
    | None => []
    end.
  (** action_flags.rs 122-131 [get_global_flags]. *)
  Definition global_flags (c : vctx) : list text := flags_of_var (get_variable c default_flags).
  (** action_flags.rs 133-139 [get_local_or_global_flags]. *)
  Definition local_or_global_flags (c : vctx) (strings : list value) : list text :=
    match strings with
    | [] => global_flags c
    | _ => flag_tokens c strings
    end.

  (** *** test_hasflag.rs *)
  (** test_hasflag.rs 57-79: one comparison; note that ':regex' is compared as a
      wildcard pattern (line 73). *)
  Definition hasflag1 (cmp : comparator) (m : mtype) (flag check : text) (caps : list (nat * text)) : cres :=
    match m with
    | MIs => CRes (cmp_is L cmp (KStr flag) (KStr check)) caps
    | MContains => CRes (cmp_contains L cmp flag check) caps
    | MValue r => CRes (cmp_relational L cmp r (KStr flag) (KStr check)) caps
    | MMatches p | MRegex p => cmp_glob L cmp flag check p caps
    | MCount _ | MList => CRes false caps
    end.
  (** test_hasflag.rs 19-97: the loop over the flags of one variable. *)
  Fixpoint hasflag_flags (cmp : comparator) (m : mtype) (check : text) (flags : list text)
           (caps : list (nat * text)) : cres :=
    match flags with
    | [] => CRes false caps
    | f :: rest => match hasflag1 cmp m f check caps with
                   | CPanic => CPanic
                   | CRes true caps' => CRes true caps'
                   | CRes false caps' => hasflag_flags cmp m check rest caps'
                   end
    end.
  (** test_hasflag.rs 51-86: for each wanted flag, for each variable (here: the
      concatenation of their flags), for each flag; first success wins. *)
  Fixpoint hasflag_checks (cmp : comparator) (m : mtype) (checks flags : list text)
           (caps : list (nat * text)) : cres :=
    match checks with
    | [] => CRes false caps
    | k :: rest => match hasflag_flags cmp m k flags caps with
                   | CPanic => CPanic
                   | CRes true caps' => CRes true caps'
                   | CRes false caps' => hasflag_checks cmp m rest flags caps'
                   end
    end.
  (** test_hasflag.rs 18-95 [TestHasFlag::exec] *)
  Definition hasflag (c : vctx) (vars : list vartype) (strings : list value) (cmp : comparator)
             (m : mtype) (is_not : bool) : tres :=
    let vars := match vars with [] => [default_flags] | _ => vars end in
    let flags := flat_map (fun n => flags_of_var (get_variable c n)) vars in
    match m with
    | MCount r =>
        TBool (xorb (existsb (fun k => rel_number r (NInt (Z.of_nat (length flags))) (v_number L (eval_value L c k))) strings)
                    is_not) []
    | _ => match hasflag_checks cmp m (flag_tokens c strings) flags [] with
           | CPanic => TPanic
           | CRes b caps => TBool (xorb b is_not) caps
           end
    end.
End F.
