(** Model of src/runtime/tests/glob.rs (wildcard patterns of ':matches'). *)
From Verif Require Import Base.

(** glob.rs 17-22 [PatternChar].  Simplification: the mutable [match_pos]
    fields are kept outside the pattern, in an array indexed like the pattern
    (see [cap_loop]). *)
Inductive pitem :=
| PMany (num : nat)          (* WildcardMany { num, .. } *)
| POne                       (* WildcardSingle { .. } *)
| PChar (c : ch).            (* Char { char, .. } *)

(** lib.rs 23 [MAX_MATCH_VARIABLES] = 63 *)
Definition max_match_variables : nat := 63.

(** glob.rs 7, 156-165: Rust core. std::char::REPLACEMENT_CHARACTER = U+FFFD *)
Definition replacement_char : ch := 65533%N.

Section Fold.
  (** [char::is_uppercase], [char::to_lowercase] (an iterator of characters)
      and [str::to_lowercase] of the Rust standard library, taken as arbitrary
      functions. *)
  Variable is_upper : ch -> bool.
  Variable char_lower : ch -> text.
  Variable str_lower : text -> text.

  (** glob.rs 49-55: a literal pattern character, lower-cased if asked. *)
  Definition pfold (to_lower : bool) (c : ch) : text :=
    if to_lower && is_upper c then char_lower c else [c].

  (** glob.rs 32-39: the item of a run of '*'. *)
  Definition flush (stars : nat) : list pitem :=
    match stars with 0 => [] | S _ => [PMany stars] end.

  (** glob.rs 25-66 [GlobPattern::compile].  [esc] is [is_escaped]; [stars] is
      the length of the run of unescaped '*' being read (the inner peek loop,
      glob.rs 33-38): the item is emitted when the run ends. *)
  Fixpoint compile_go (to_lower esc : bool) (stars : nat) (p : text) : list pitem :=
    match p with
    | [] => flush stars
    | c :: p' =>
        if negb esc && N.eqb c c_star then compile_go to_lower false (S stars) p'
        else flush stars ++
             (if negb esc && N.eqb c c_quest then POne :: compile_go to_lower false 0 p'
              else if negb esc && N.eqb c c_bslash then compile_go to_lower true 0 p'
              else map PChar (pfold to_lower c) ++ compile_go to_lower false 0 p')
    end.
  (** glob.rs 25-66 [GlobPattern::compile]. *)
  Definition compile (p : text) (to_lower : bool) : list pitem :=
    compile_go to_lower false 0 p.

  (** Loop state shared by [matches] (glob.rs 76-79) and [capture] (139-142). *)
  Record gst := { px : nat; nx : nat; next_px : nat; next_nx : nat }.
  (** glob.rs 76-79, 139-142: the initial values. *)
  Definition gst0 : gst := {| px := 0; nx := 0; next_px := 0; next_nx := 0 |}.

  (** glob.rs 81-110: the body of the loop returns, or goes on with new positions. *)
  Inductive gstep := GDone (b : bool) | GGo (s : gst).

  (** glob.rs 105-110: back to the last star, one character further. *)
  Definition backtrack (vlen : nat) (s : gst) : gstep :=
    if (Nat.ltb 0 (next_nx s)) && (Nat.leb (next_nx s) vlen)
    then GGo {| px := next_px s; nx := next_nx s; next_px := next_px s; next_nx := next_nx s |}
    else GDone false.

  (** glob.rs 85-104: the [px += 1; nx += 1; continue] of a character that fits. *)
  Definition advance (s : gst) : gstep :=
    GGo {| px := S (px s); nx := S (nx s); next_px := next_px s; next_nx := next_nx s |}.

  (** glob.rs 81-111: one iteration of the loop of [matches]. *)
  Definition match_step (pat : list pitem) (value : text) (s : gst) : gstep :=
    if (Nat.ltb (px s) (length pat)) || (Nat.ltb (nx s) (length value)) then
      match nth_error pat (px s) with
      | Some (PChar c) =>
          match nth_error value (nx s) with
          | Some nc => if N.eqb nc c then advance s else backtrack (length value) s
          | None => backtrack (length value) s
          end
      | Some POne =>
          if Nat.ltb (nx s) (length value) then advance s else backtrack (length value) s
      | Some (PMany _) =>
          GGo {| px := S (px s); nx := nx s; next_px := px s; next_nx := S (nx s) |}
      | None => backtrack (length value) s
      end
    else GDone true.

  (** glob.rs 81-112. The [while] loop, fuelled; [None] = fuel exhausted (the theorems show that
      [match_fuel] suffices, i.e. that the loop terminates). *)
  Fixpoint match_loop (fuel : nat) (pat : list pitem) (value : text) (s : gst) : option bool :=
    match fuel with
    | 0 => None
    | S f => match match_step pat value s with
             | GDone b => Some b
             | GGo s' => match_loop f pat value s'
             end
    end.

  (** No counterpart in the code: a number of iterations that is enough for [match_loop]. *)
  Definition match_fuel (pat : list pitem) (vlen : nat) : nat :=
    S ((S (S (length pat))) * (S (S vlen))).

  (** glob.rs 69-113 [GlobPattern::matches] (lines 70-74: the value is
      lower-cased with [str::to_lowercase]). *)
  Definition gmatches (pat : list pitem) (to_lower : bool) (value : text) : option bool :=
    let v := if to_lower then str_lower value else value in
    match_loop (match_fuel pat (length v)) pat v gst0.

  (** glob.rs 121-137: the pairs (folded character, original character) used by
      [capture]; the 2nd, 3rd, ... characters of a multi-character lower-case
      mapping carry U+FFFD as original. *)
  Definition cap_char (to_lower : bool) (c : ch) : list (ch * ch) :=
    if to_lower && is_upper c then
      match char_lower c with
      | [] => []
      | l :: ls => (l, c) :: map (fun x => (x, replacement_char)) ls
      end
    else [(c, c)].
  (** glob.rs 121-137: the value as pairs of folded and original character. *)
  Definition cap_value (to_lower : bool) (v : text) : list (ch * ch) :=
    flat_map (cap_char to_lower) v.

  (** Rust core: [match_positions\[i\] = v]. *)
  Definition set_nth (i v : nat) (l : list nat) : list nat :=
    firstn i l ++ (match skipn i l with [] => [] | _ :: r => v :: r end).

  (** glob.rs 144-182: the loop of [capture].  Same control flow as
      [match_step]; the array [mp] holds the [match_pos] fields and is updated
      where the code updates them (149, 157, 164). *)
  Definition cap_step (pat : list pitem) (value : list (ch * ch)) (s : gst) (mp : list nat)
    : gstep * list nat :=
    if (Nat.ltb (px s) (length pat)) || (Nat.ltb (nx s) (length value)) then
      match nth_error pat (px s) with
      | Some (PChar c) =>
          match nth_error value (nx s) with
          | Some nc => if N.eqb (fst nc) c then (advance s, set_nth (px s) (nx s) mp)
                       else (backtrack (length value) s, mp)
          | None => (backtrack (length value) s, mp)
          end
      | Some POne =>
          if Nat.ltb (nx s) (length value) then (advance s, set_nth (px s) (nx s) mp)
          else (backtrack (length value) s, mp)
      | Some (PMany _) =>
          (GGo {| px := S (px s); nx := nx s; next_px := px s; next_nx := S (nx s) |},
           set_nth (px s) (nx s) mp)
      | None => (backtrack (length value) s, mp)
      end
    else (GDone true, mp).

  (** glob.rs 144-184: the loop of [capture], fuelled; the positions are kept in a list. *)
  Fixpoint cap_loop (fuel : nat) (pat : list pitem) (value : list (ch * ch)) (s : gst)
           (mp : list nat) : option (bool * list nat) :=
    match fuel with
    | 0 => None
    | S f => match cap_step pat value s mp with
             | (GDone b, mp') => Some (b, mp')
             | (GGo s', mp') => cap_loop f pat value s' mp'
             end
    end.

  (** glob.rs 206-216: original characters of a range, U+FFFD filtered out. *)
  Definition orig_text (r : list (ch * ch)) : text :=
    filter (fun c => negb (N.eqb c replacement_char)) (map snd r).

  (** glob.rs 230-236: text captured by '?'. *)
  Definition one_text (x : ch * ch) : text :=
    if N.eqb (snd x) replacement_char then [fst x] else [snd x].

  (** Rust core. Rust slice access [value.get(a..b)]. *)
  Definition slice {A} (l : list A) (a b : nat) : option (list A) :=
    if (Nat.leb a b) && (Nat.leb b (length l)) then Some (firstn (b - a) (skipn a l)) else None.

  (** glob.rs 115-254. Outcome of [capture].  [CapOverflow]: the shift [1 << wildcard_pos] has a shift
      amount of 64 or more (panic with overflow checks, wrong bit otherwise).  [CapFuel]: model fuel
      exhausted, excluded by the theorems. *)
  Inductive capres :=
  | CapFuel | CapOverflow | CapFalse
  | CapOk (vals : list (nat * text)).

  (** glob.rs 186-254: [capture_positions & (1 << wildcard_pos) != 0]. *)
  Definition bit (positions : N) (k : nat) : bool := N.testbit positions (N.of_nat k).

  (** glob.rs 197-203: the leading [num - 1] stars of a run capture "". *)
  Fixpoint empty_caps (positions : N) (wp n : nat) : option (list (nat * text) * nat) :=
    match n with
    | 0 => Some ([], wp)
    | S n' =>
        if Nat.ltb wp 64 then
          match empty_caps positions (S wp) n' with
          | Some (l, wp') => Some (if bit positions wp then (wp, []) :: l else l, wp')
          | None => None
          end
        else None
    end.

  (** glob.rs 192-252: the pass that collects captured texts. *)
  Fixpoint cap_collect (positions : N) (value : list (ch * ch)) (items : list (pitem * nat))
           (wp last_pos : nat) : capres :=
    match items with
    | [] => CapOk []
    | (it, mpos) :: rest =>
        if Nat.leb wp max_match_variables then
          match it with
          | PMany num =>
              match empty_caps positions wp (num - 1) with
              | None => CapOverflow
              | Some (l, wp') =>
                  if Nat.ltb wp' 64 then
                    match (if bit positions wp'
                           then match slice value last_pos mpos with
                                | Some r => Some [(wp', orig_text r)]
                                | None => None
                                end
                           else Some []) with
                    | None => CapFalse
                    | Some l' =>
                        match cap_collect positions value rest (S wp') (S mpos) with
                        | CapOk l'' => CapOk (l ++ l' ++ l'')
                        | e => e
                        end
                    end
                  else CapOverflow
              end
          | POne =>
              match (if bit positions wp
                     then match nth_error value mpos with
                          | Some x => Some [(wp, one_text x)]
                          | None => None
                          end
                     else Some []) with
              | None => CapFalse
              | Some l' =>
                  match cap_collect positions value rest (S wp) (S mpos) with
                  | CapOk l'' => CapOk (l' ++ l'')
                  | e => e
                  end
              end
          | PChar _ => cap_collect positions value rest wp (S mpos)
          end
        else CapOk []
    end.

  (** glob.rs 115-254 [GlobPattern::capture]; [match_pos] starts at 0 for every
      item (glob.rs 39-57). *)
  Definition gcapture (pat : list pitem) (to_lower : bool) (value : text) (positions : N) : capres :=
    let v := cap_value to_lower value in
    match cap_loop (match_fuel pat (length v)) pat v gst0 (map (fun _ => 0) pat) with
    | None => CapFuel
    | Some (false, _) => CapFalse
    | Some (true, mp) =>
        match cap_collect positions v (combine pat mp) 1 0 with
        | CapOk l => CapOk ((if bit positions 0 then [(0, value)] else []) ++ l)
        | e => e
        end
    end.

  (** comparator.rs 55-69 [Comparator::matches]: capturing variant when the
      script refers to some match variable; [ascii_casemap] tells whether the
      comparator is i;ascii-casemap.  Result: truth and the new captured values
      ([None] = the vector is left untouched). *)
  Inductive mres := MFuel | MOverflow | MRes (b : bool) (caps : option (list (nat * text))).
  (** comparator.rs 55-69 [Comparator::matches]. *)
  Definition cmp_matches (ascii_casemap : bool) (value pattern : text) (positions : N) : mres :=
    let pat := compile pattern ascii_casemap in
    if N.eqb positions 0 then
      match gmatches pat ascii_casemap value with
      | Some b => MRes b None
      | None => MFuel
      end
    else match gcapture pat ascii_casemap value positions with
         | CapFuel => MFuel
         | CapOverflow => MOverflow
         | CapFalse => MRes false None
         | CapOk l => MRes true (Some l)
         end.
End Fold.
