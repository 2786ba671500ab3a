(** Model of src/runtime/actions/action_editheader.rs (addheader, deleteheader). *)
From Verif Require Import Base Lib Var Value Glob Comparator Message.

(** The part of [Context] (lib.rs 92-133) these actions change: the parsed
    message, [has_changes] and [message_size].  Simplification: usize is [nat];
    the only subtraction is checked below. *)
Record mstate := {
  ms_parts : list part;
  ms_changed : bool;
  ms_size : nat
}.

(** action_editheader.rs 143-157 [remove_crlf]: characters other than CR and LF,
    until the next one would exceed [max] bytes. *)
Fixpoint remove_crlf_go (max used : nat) (s : text) : text :=
  match s with
  | [] => []
  | c :: s' =>
      if N.eqb c c_lf || N.eqb c c_cr then remove_crlf_go max used s'
      else if Nat.leb (used + len_utf8 c) max then c :: remove_crlf_go max (used + len_utf8 c) s'
           else []
  end.
(** action_editheader.rs 144-156 [remove_crlf], from the start. *)
Definition remove_crlf (max : nat) (s : text) : text := remove_crlf_go max 0 s.

(** Rust core: [v\[i\] = ...]. Change one element of a list; [None] models Rust's index panic. *)
Fixpoint update_nth {A} (i : nat) (f : A -> option A) (l : list A) : option (list A) :=
  match l, i with
  | [], _ => None
  | x :: l', 0 => option_map (fun y => y :: l') (f x)
  | x :: l', S i' => option_map (cons x) (update_nth i' f l')
  end.
(** Rust core. [Vec::remove], which panics when out of range. *)
Fixpoint remove_at {A} (i : nat) (l : list A) : option (list A) :=
  match l, i with
  | [], _ => None
  | x :: l', 0 => Some l'
  | x :: l', S i' => option_map (cons x) (remove_at i' l')
  end.

(** A header that has no bytes in the original message (lines 170-176). *)
Definition new_header (name value : text) : header :=
  {| h_name := name; h_raw := false; h_val := HText value; h_plain := value; h_bytes := 0 |}.

(** action_editheader.rs 159-184 [insert_header]; [None] is an index panic. *)
Definition insert_header (st : mstate) (part_id : nat) (name value : text) (last : bool) : option mstate :=
  option_map (fun ps => {| ms_parts := ps; ms_changed := ms_changed st;
                           ms_size := ms_size st + (blen name + blen value + 4) |})
    (update_nth part_id
       (fun p => Some (set_headers (if last then p_headers p ++ [new_header name value]
                                    else new_header name value :: p_headers p) p))
       (ms_parts st)).

(** action_editheader.rs 117-121: bytes accounted for one deleted header. *)
(** action_editheader.rs 117-121: the length of the value of a header that was added. *)
Definition hv_len (v : hvalue) : nat := match v with HText t => blen t | _ => 0 end.
(** action_editheader.rs 117-121: bytes accounted for one deleted header. *)
Definition header_size (h : header) : nat :=
  if h_raw h then h_bytes h else blen (h_name h) + hv_len (h_val h) + 4.

Section E.
  Variable L : rustlib.
  Variable rx : text -> text -> option (list (option text)).
  Variable M : mailparser.

  (** action_editheader.rs 22-51 [AddHeader::exec]; name and value are already
      evaluated, [part_id] is [ctx.part]. *)
  Definition add_header (protected : list text) (max_header_size : nat) (name value : text) (last : bool)
             (part_id : nat) (st : mstate) : option mstate :=
    let clean := filter (fun c => chr_is_alnum L c || N.eqb c 45) name in
    match clean with
    | [] => Some st
    | _ =>
        match hn_parse M clean with
        | None => Some st
        | Some hn =>
            if existsb (hn_eqb hn) protected then Some st
            else insert_header {| ms_parts := ms_parts st; ms_changed := true; ms_size := ms_size st |}
                   part_id hn (remove_crlf max_header_size value) last
        end
    end.

  (** action_editheader.rs 71-114: does the header's value match a pattern?  [None]
      is an arithmetic panic of the wildcard matcher. *)
  Definition delete_matches (c : comparator) (m : mtype) (patterns : list var) (h : header) : option bool :=
    match patterns with
    | [] => Some true
    | _ => match values_loop L rx c (match m with MMatches _ => MMatches 0 | MRegex _ => MRegex 0 | m => m end)
                   (header_values M h MoNone) patterns [] with
           | CPanic => None
           | CRes b _ => Some b
           end
    end.

  (** The headers to delete among those visited (lines 66-126), in visiting
      order. *)
  Fixpoint to_delete (c : comparator) (m : mtype) (patterns : list var) (l : list located)
    : option (list located) :=
    match l with
    | [] => Some []
    | x :: l' =>
        match delete_matches c m patterns (l_header x), to_delete c m patterns l' with
        | Some b, Some r => Some (if b then x :: r else r)
        | _, _ => None
        end
    end.

  (** action_editheader.rs 129-134: remove the marked headers, last one first. *)
  Definition remove_marked (ps : list part) (marks : list (nat * nat)) : option (list part) :=
    fold_right (fun m acc =>
      match acc with
      | None => None
      | Some ps => update_nth (fst m)
                     (fun p => option_map (fun hs => set_headers hs p) (remove_at (snd m) (p_headers p))) ps
      end) (Some ps) marks.

  (** action_editheader.rs 53-137 [DeleteHeader::exec]; [None] is a panic (index
      out of range, size underflow) or fuel exhaustion. *)
  Definition delete_header (protected : list text) (name : text) (index : option Z) (anychild : bool)
             (c : comparator) (m : mtype) (patterns : list var) (part_id : nat) (st : mstate) : option mstate :=
    match hn_parse M name with
    | None => Some st
    | Some hn =>
        if existsb (hn_eqb hn) protected then Some st
        else
          match find_headers (ms_parts st) part_id [hn] index anychild with
          | None => None
          | Some found =>
              match to_delete c m patterns found with
              | None => None
              | Some marked =>
                  match remove_marked (ms_parts st) (map (fun x => (l_part x, l_pos x)) marked) with
                  | None => None
                  | Some ps =>
                      let bytes := list_sum (map (fun x => header_size (l_header x)) marked) in
                      if Nat.ltb (ms_size st) bytes then None
                      else Some {| ms_parts := ps;
                                   ms_changed := (match marked with [] => ms_changed st | _ => true end);
                                   ms_size := ms_size st - bytes |}
                  end
              end
          end
    end.
End E.

(** No counterpart in the code: . A sequence of header edits, as a script performs them. *)
Inductive edit :=
| EAdd (name value : text) (last : bool) (part_id : nat)
| EDelete (name : text) (index : option Z) (anychild : bool) (c : comparator) (m : mtype)
          (patterns : list var) (part_id : nat).
(** No counterpart in the code: the edits one after the other. *)
Fixpoint run_edits (L : rustlib) (rx : text -> text -> option (list (option text))) (M : mailparser)
         (protected : list text) (max : nat) (es : list edit) (st : mstate) : option mstate :=
  match es with
  | [] => Some st
  | EAdd n v l p :: es' =>
      match add_header L M protected max n v l p st with
      | Some st' => run_edits L rx M protected max es' st' | None => None end
  | EDelete n i a c m k p :: es' =>
      match delete_header L rx M protected n i a c m k p st with
      | Some st' => run_edits L rx M protected max es' st' | None => None end
  end.
